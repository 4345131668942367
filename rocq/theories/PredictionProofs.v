From Coq Require Import List Arith Lia.
Import ListNotations.
From Verif Require Import Base BaseProofs PredictionModel PredictionSpec.

Section Dispatch.
Context {N : Type}.
Lemma diagonal_from_ok k (rows : list (list N)) :
  (forall i row, nth_error rows i = Some row -> k + i < length row) ->
  exists d, diagonal_from k rows = Ok d /\ length d = length rows /\
    forall i row, nth_error rows i = Some row -> nth_error d i = nth_error row (k + i).
Proof.
  revert k; induction rows as [|r rows IH]; intros k H.
  - exists []; repeat split; intros [|i] row E; discriminate.
  - destruct (IH (S k)) as [d [E [L P]]].
    { intros i row Hi. specialize (H (S i) row Hi). lia. }
    assert (Hk : k < length r) by (specialize (H 0 r eq_refl); lia).
    apply nth_error_Some in Hk. destruct (nth_error r k) as [x|] eqn:Hx; [|congruence].
    exists (x :: d); cbn; rewrite Hx; cbn; rewrite E; cbn; repeat split; [congruence|].
    intros [|i] row; cbn.
    + intros [= <-]. now rewrite Nat.add_0_r, Hx.
    + intros Hi. rewrite (P i row Hi). f_equal; lia.
Qed.
Context {Fit Feature : Type}.
Implicit Type m : methods N Fit Feature.
Lemma square_rows (c : list (list N)) : square c -> forall i row, nth_error c i = Some row -> 0 + i < length row.
Proof.
  intros H i row E. rewrite (H row (nth_error_In _ _ E)). cbn. apply nth_error_Some. congruence.
Qed.
Lemma mean_of_marginal m fit fs r : consistent m ->
  prediction_marginal m fit fs = Some (Ok r) -> mean m fit fs = Some (Ok (m_mean r)).
Proof.
  intros C E. unfold mean, prediction_marginal, mean_predictor, marginal_predictor in *.
  destruct (C fit fs) as [C1 [C2 C3]].
  destruct (p_mean m) as [f|] eqn:Ef, (p_marginal m) as [g|] eqn:Eg, (p_joint m) as [h|] eqn:Eh;
    try discriminate E; destruct fs as [|x fs]; injection E as E.
  all: try (subst r; reflexivity).
  - now rewrite (C1 f g eq_refl eq_refl r E).
  - now rewrite (C1 f g eq_refl eq_refl r E).
  - destruct (h fit (x :: fs)) as [j| | |] eqn:Ej; try discriminate E.
    rewrite (C2 f h eq_refl eq_refl j Ej). cbn in E. unfold joint_marginal in E.
    destruct (diagonal_from 0 _); try discriminate E. now injection E as <-.
  - now rewrite E.
  - now rewrite E.
  - destruct (h fit (x :: fs)) as [j| | |] eqn:Ej; try discriminate E. cbn in E |- *.
    unfold joint_marginal in E. destruct (diagonal_from 0 _); try discriminate E. now injection E as <-.
Qed.
Lemma marginal_of_joint m fit fs j : consistent m ->
  prediction_joint m fit fs = Some (Ok j) -> square (j_covariance j) ->
  exists d, prediction_marginal m fit fs = Some (Ok (Marginal (j_mean j) d)) /\
    length d = length (j_covariance j) /\
    forall i row, nth_error (j_covariance j) i = Some row -> nth_error d i = nth_error row i.
Proof.
  intros C E S. unfold prediction_joint, prediction_marginal, joint_predictor, marginal_predictor in *.
  destruct (C fit fs) as [C1 [C2 C3]].
  destruct (p_marginal m) as [g|] eqn:Eg, (p_joint m) as [h|] eqn:Eh; try discriminate E;
    destruct fs as [|x fs]; injection E as E.
  - subst j. exists []. repeat split. intros [|i] row Hi; discriminate Hi.
  - destruct (C3 g h eq_refl eq_refl j E) as [d [E' P]]. exists d. now rewrite E'.
  - subst j. exists []. repeat split. intros [|i] row Hi; discriminate Hi.
  - rewrite E. cbn. unfold joint_marginal.
    destruct (diagonal_from_ok 0 (j_covariance j) (square_rows _ S)) as [d [E' [L P]]].
    exists d. rewrite E'. now repeat split.
Qed.
End Dispatch.

Section Null.
Context {N : Type} (zero big : N) {Feature : Type}.
Lemma null_rows n i row : nth_error (scaled_identity zero big n) i = Some row ->
  length row = n /\ forall j, nth_error row j = if j <? n then Some (if i =? j then big else zero) else None.
Proof.
  unfold scaled_identity. rewrite nth_error_map'. destruct (nth_error (seq 0 n) i) as [k|] eqn:E; [|discriminate].
  intros [= <-]. split; [now rewrite map_length, seq_length|].
  assert (Hk : k = i).
  { assert (Hi : i < n) by (rewrite <- (seq_length n 0); apply nth_error_Some; congruence).
    apply nth_error_nth with (d := 0) in E. rewrite seq_nth in E by exact Hi. lia. }
  subst k. intros j. rewrite nth_error_map'. destruct (j <? n) eqn:Hj.
  - apply Nat.ltb_lt in Hj. rewrite (nth_error_nth' (seq 0 n) 0) by now rewrite seq_length.
    now rewrite seq_nth.
  - apply Nat.ltb_ge in Hj. destruct (nth_error (seq 0 n) j) eqn:E'; [|reflexivity].
    assert (j < length (seq 0 n)) by (apply nth_error_Some; congruence). rewrite seq_length in *. lia.
Qed.
Lemma length_identity n : length (scaled_identity zero big n) = n.
Proof. unfold scaled_identity. now rewrite map_length, seq_length. Qed.
Lemma nth_error_repeat' {A} (a : A) n i : i < n -> nth_error (repeat a n) i = Some a.
Proof. revert i; induction n; intros [|i] H; cbn; try lia; [reflexivity|]. apply IHn. lia. Qed.
Lemma null_consistent : consistent (null_methods zero big (Feature := Feature)).
Proof.
  intros fit fs. repeat split; cbn; try discriminate.
  intros g h [= <-] [= <-] r [= <-]; cbn. exists (repeat big (length fs)). repeat split.
  - now rewrite repeat_length, length_identity.
  - intros i row Hi. destruct (null_rows _ _ _ Hi) as [_ ->].
    assert (Hl : i < length fs) by (rewrite <- (length_identity (length fs)); apply nth_error_Some; congruence).
    rewrite nth_error_repeat' by exact Hl. apply Nat.ltb_lt in Hl. now rewrite Hl, Nat.eqb_refl.
Qed.
End Null.

Section Lifetime.
Context {Model Fit Feature Data Answer : Type}.
Variable noisy : Feature -> Feature.
Variable update_impl : Model -> Fit -> Data -> Fit.
Variable ask : predict_type -> Model -> Fit -> list Feature -> Answer.
Notation memory := (memory Model Fit Feature).
Implicit Type s : memory.

(* every action only adds predictions *)
Lemma act_predictions a s s' : act noisy update_impl a s = Ok s' ->
  exists more, predictions s' = predictions s ++ more.
Proof.
  destruct a; cbn; unfold alive; try destruct (nth_error _ location) as [[]|]; cbn; try discriminate;
    intros [= <-]; cbn; try (exists []; now rewrite app_nil_r); eexists; reflexivity.
Qed.
Lemma run_predictions acts s s' : run noisy update_impl acts s = Ok s' ->
  exists more, predictions s' = predictions s ++ more.
Proof.
  revert s; induction acts as [|a acts IH]; cbn; intros s.
  - intros [= <-]. exists []. now rewrite app_nil_r.
  - destruct (act noisy update_impl a s) as [s1| | |] eqn:E; cbn; try discriminate. intros H.
    destruct (act_predictions _ _ _ E) as [m1 E1]. destruct (IH _ H) as [m2 E2].
    exists (m1 ++ m2). now rewrite E2, E1, app_assoc.
Qed.
Lemma prediction_kept acts s s' p q : run noisy update_impl acts s = Ok s' ->
  nth_error (predictions s) p = Some q -> nth_error (predictions s') p = Some q.
Proof.
  intros H E. destruct (run_predictions _ _ _ H) as [more ->]. rewrite nth_error_app1; [exact E|].
  apply nth_error_Some. congruence.
Qed.
(* an action that leaves l alone keeps its object *)
Lemma act_leaves l a s s' o : leaves l a -> act noisy update_impl a s = Ok s' ->
  nth_error (objects s) l = Some o -> nth_error (objects s') l = Some o.
Proof.
  intros Hl H E. assert (Hlt : l < length (objects s)) by (apply nth_error_Some; congruence).
  destruct a; cbn in Hl, H; unfold alive in H; try destruct (nth_error _ location) as [[]|]; cbn in H;
    try discriminate H; injection H as <-; cbn; try exact E;
    try (rewrite nth_error_app1 by exact Hlt; exact E);
    rewrite nth_error_set_nth_neq by exact Hl; exact E.
Qed.
Lemma run_leaves l acts s s' o : Forall (leaves l) acts -> run noisy update_impl acts s = Ok s' ->
  nth_error (objects s) l = Some o -> nth_error (objects s') l = Some o.
Proof.
  revert s; induction acts as [|a acts IH]; cbn; intros s HF.
  - now intros [= <-].
  - inversion_clear HF as [|? ? Ha HF']. destruct (act noisy update_impl a s) as [s1| | |] eqn:E; cbn; try discriminate.
    intros H Eo. apply (IH s1 HF' H). exact (act_leaves _ _ _ _ _ Ha E Eo).
Qed.
Lemma run_app acts1 acts2 s : run noisy update_impl (acts1 ++ acts2) s =
  bind (run noisy update_impl acts1 s) (run noisy update_impl acts2).
Proof.
  revert s; induction acts1 as [|a acts IH]; cbn; intros s; [reflexivity|].
  destruct (act noisy update_impl a s); cbn; [apply IH|reflexivity..].
Qed.
(* nothing brings a destroyed object back *)
Lemma act_destroyed l a s s' : act noisy update_impl a s = Ok s' ->
  nth_error (objects s) l = Some Destroyed -> nth_error (objects s') l = Some Destroyed.
Proof.
  intros H E. assert (Hlt : l < length (objects s)) by (apply nth_error_Some; congruence).
  destruct a; cbn in H; unfold alive in H;
    try (destruct (Nat.eq_dec location l) as [->|Hne]; [rewrite E in H; discriminate H|]);
    try destruct (nth_error (objects s) location) as [[]|]; cbn in H;
    try discriminate H; injection H as <-; cbn; try exact E;
    try (rewrite nth_error_app1 by exact Hlt; exact E);
    rewrite nth_error_set_nth_neq by exact Hne; exact E.
Qed.
Lemma run_destroyed l acts s s' : run noisy update_impl acts s = Ok s' ->
  nth_error (objects s) l = Some Destroyed -> nth_error (objects s') l = Some Destroyed.
Proof.
  revert s; induction acts as [|a acts IH]; cbn; intros s; [now intros [= <-]|].
  destruct (act noisy update_impl a s) as [s1| | |] eqn:E; cbn; try discriminate.
  intros H Eo. apply (IH s1 H). exact (act_destroyed _ _ _ _ E Eo).
Qed.
Lemma nth_error_end {A} (l : list A) x : nth_error (l ++ [x]) (length l) = Some x.
Proof. rewrite nth_error_app2, Nat.sub_diag by lia. reflexivity. Qed.
Lemma set_nth_end {A} (l : list A) x y : set_nth (l ++ [x]) (length l) y = l ++ [y].
Proof. induction l; cbn; congruence. Qed.
End Lifetime.
