From Coq Require Import Reals Lra Bool.
From Verif Require Import ExtRealModel.
Local Open Scope R_scope.

Lemma Rltb_spec x y : reflect (x < y) (Rltb x y).
Proof. unfold Rltb. destruct (Rlt_dec x y); constructor; assumption. Qed.
Lemma Rleb_spec x y : reflect (x <= y) (Rleb x y).
Proof. unfold Rleb. destruct (Rle_dec x y); constructor; assumption. Qed.
Lemma Reqb_spec x y : reflect (x = y) (Reqb x y).
Proof. unfold Reqb. destruct (Req_EM_T x y); constructor; assumption. Qed.

Ltac xcase := repeat match goal with
  | |- context [Rltb ?x ?y] => destruct (Rltb_spec x y)
  | |- context [Rleb ?x ?y] => destruct (Rleb_spec x y)
  | |- context [Reqb ?x ?y] => destruct (Reqb_spec x y)
  | H : context [Rltb ?x ?y] |- _ => destruct (Rltb_spec x y)
  | H : context [Rleb ?x ?y] |- _ => destruct (Rleb_spec x y)
  | H : context [Reqb ?x ?y] |- _ => destruct (Reqb_spec x y)
  end.

Lemma xleb_not_nan a b : xleb a b = true -> a <> XNaN /\ b <> XNaN.
Proof. destruct a, b; cbn; try discriminate; split; discriminate. Qed.

Lemma xltb_irrefl a : xltb a a = false.
Proof. destruct a; cbn; auto. xcase; [lra|reflexivity]. Qed.

Lemma xleb_refl a : a <> XNaN -> xleb a a = true.
Proof. destruct a; cbn; try tauto; intros _. xcase; [reflexivity|lra]. Qed.

Lemma xleb_ltb a b : xleb a b = true -> xltb b a = false.
Proof. destruct a, b; cbn; try discriminate; auto. xcase; try discriminate; auto. lra. Qed.

Lemma xltb_leb a b : xltb a b = true -> xleb a b = true.
Proof. destruct a, b; cbn; try discriminate; auto. xcase; try discriminate; auto. lra. Qed.

Lemma xnlt_leb a b : a <> XNaN -> b <> XNaN -> xltb a b = false -> xleb b a = true.
Proof. destruct a, b; cbn; try tauto; try discriminate; auto. intros _ _. xcase; try discriminate; auto. lra. Qed.

Lemma xleb_trans a b c : xleb a b = true -> xleb b c = true -> xleb a c = true.
Proof. destruct a, b, c; cbn; try discriminate; auto. xcase; try discriminate; auto. lra. Qed.

Lemma xltb_leb_trans a b c : xltb a b = true -> xleb b c = true -> xltb a c = true.
Proof. destruct a, b, c; cbn; try discriminate; auto. xcase; try discriminate; auto. lra. Qed.

Lemma xlog_exp a : xlog (xexp a) = a.
Proof.
  destruct a; cbn; try reflexivity.
  - xcase; try reflexivity; lra.
  - pose proof (exp_pos x). xcase; [|lra|lra]. f_equal. apply ln_exp.
Qed.

Lemma xexp_log a : a = XNaN \/ xleb (XFin 0) a = true -> xexp (xlog a) = a.
Proof.
  intros [->|Ha]; [reflexivity|]. destruct a; cbn in *; try discriminate; try reflexivity.
  xcase; try discriminate; cbn; f_equal; try lra. apply exp_ln. lra.
Qed.

Lemma xexp_mono a b : xltb a b = true -> xltb (xexp a) (xexp b) = true.
Proof.
  destruct a, b; cbn; try discriminate; auto; try (pose proof (exp_pos x); xcase; auto; lra).
  pose proof (exp_increasing x x0). xcase; try discriminate; auto.
Qed.
Lemma xexp_mono_le a b : xleb a b = true -> xleb (xexp a) (xexp b) = true.
Proof.
  intros Hab. destruct (xltb a b) eqn:E.
  - apply xltb_leb, xexp_mono, E.
  - destruct (xleb_not_nan _ _ Hab) as [Ha Hb].
    assert (a = b) as ->.
    { pose proof (xnlt_leb a b Ha Hb E) as Hba. destruct a, b; cbn in *; try discriminate; try tauto.
      xcase; try discriminate. f_equal. lra. }
    apply xleb_refl. destruct b; cbn; congruence.
Qed.
