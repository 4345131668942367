(* The real numbers of the standard library as an ordered field of mathcomp. No code is modelled
   here. *)
From Coq Require Import Reals Lra Epsilon FunctionalExtensionality.
From mathcomp Require Import all_ssreflect all_algebra.
Set Implicit Arguments.
Unset Strict Implicit.
Unset Printing Implicit Defensive.
Local Open Scope ring_scope.
Import Order.TTheory GRing.Theory Num.Theory.

Definition eqR (x y : R) : bool := if Req_EM_T x y then true else false.
Lemma eqRP : Equality.axiom eqR.
Proof. by move=> x y; rewrite /eqR; case: (Req_EM_T x y) => h; constructor. Qed.
Canonical R_eqMixin := EqMixin eqRP.
Canonical R_eqType := Eval hnf in EqType R R_eqMixin.

Definition pickR (P : pred R) (n : nat) : option R :=
  let x := epsilon (inhabits R0) (fun x => P x) in if P x then Some x else None.
Lemma pickR_some P n x : pickR P n = Some x -> P x.
Proof. by rewrite /pickR; case: ifP => // h [<-]. Qed.
Lemma pickR_ex (P : pred R) : (exists x, P x) -> exists n, pickR P n.
Proof. by move=> h; exists 0%N; rewrite /pickR (epsilon_spec (inhabits R0) (fun x => P x) h). Qed.
Lemma pickR_ext (P Q : pred R) : P =1 Q -> pickR P =1 pickR Q.
Proof. by move=> /functional_extensionality ->. Qed.
Definition R_choiceMixin : choiceMixin R := Choice.Mixin pickR_some pickR_ex pickR_ext.
Canonical R_choiceType := Eval hnf in ChoiceType R R_choiceMixin.

Lemma RplusA : associative Rplus.
Proof. by move=> x y z; rewrite Rplus_assoc. Qed.
Definition R_zmodMixin := ZmodMixin RplusA Rplus_comm Rplus_0_l Rplus_opp_l.
Canonical R_zmodType := Eval hnf in ZmodType R R_zmodMixin.
Lemma RmultA : associative Rmult.
Proof. by move=> x y z; rewrite Rmult_assoc. Qed.
Lemma R1_neq0 : R1 != R0.
Proof. by apply/eqP; exact: R1_neq_R0. Qed.
Definition R_ringMixin := RingMixin RmultA Rmult_1_l Rmult_1_r Rmult_plus_distr_r Rmult_plus_distr_l R1_neq0.
Canonical R_ringType := Eval hnf in RingType R R_ringMixin.
Canonical R_comRingType := Eval hnf in ComRingType R Rmult_comm.

Lemma RmulV : {in [pred x : R | x != R0], left_inverse R1 Rinv Rmult}.
Proof. by move=> x /eqP; exact: Rinv_l. Qed.
Lemma RmulrV : {in [pred x : R | x != R0], right_inverse R1 Rinv Rmult}.
Proof. by move=> x /eqP; exact: Rinv_r. Qed.
Lemma Runit x y : (Rmult y x = R1) /\ (Rmult x y = R1) -> x != R0.
Proof. by move=> [h _]; apply/eqP => e; move: h; rewrite e Rmult_0_r => /esym /R1_neq_R0. Qed.
Lemma Rinv_out : {in [predC [pred x : R | x != R0]], Rinv =1 id}.
Proof. by move=> x /=; rewrite !inE negbK => /eqP ->; exact: Rinv_0. Qed.
Definition R_unitRingMixin := UnitRingMixin RmulV RmulrV Runit Rinv_out.
Canonical R_unitRingType := Eval hnf in UnitRingType R R_unitRingMixin.
Canonical R_comUnitRingType := Eval hnf in [comUnitRingType of R].
Lemma R_idomainMixin (x y : R) : x * y = 0 -> (x == 0) || (y == 0).
Proof. by move=> /Rmult_integral [->|->]; rewrite eqxx ?orbT. Qed.
Canonical R_idomainType := Eval hnf in IdomainType R R_idomainMixin.
Lemma R_fieldMixin : GRing.Field.mixin_of [unitRingType of R].
Proof. by []. Qed.
Canonical R_fieldType := Eval hnf in FieldType R R_fieldMixin.

Definition leR (x y : R) : bool := if Rle_dec x y then true else false.
Definition ltR (x y : R) : bool := if Rlt_dec x y then true else false.
Lemma leRP x y : reflect (Rle x y) (leR x y).
Proof. by rewrite /leR; case: (Rle_dec x y) => h; constructor. Qed.
Lemma ltRP x y : reflect (Rlt x y) (ltR x y).
Proof. by rewrite /ltR; case: (Rlt_dec x y) => h; constructor. Qed.
Lemma leR_norm_add x y : leR (Rabs (x + y)) (Rabs x + Rabs y).
Proof. by apply/leRP; exact: Rabs_triang. Qed.
Lemma addR_gt0 x y : ltR 0 x -> ltR 0 y -> ltR 0 (x + y).
Proof. by move=> /ltRP hx /ltRP hy; apply/ltRP; exact: Rplus_lt_0_compat. Qed.
Lemma normR0_eq0 x : Rabs x = 0 -> x = 0.
Proof. by move=> h; case: (Req_dec x 0%R) => // /Rabs_no_R0. Qed.
Lemma leR_total0 x y : leR 0 x -> leR 0 y -> leR x y || leR y x.
Proof. by move=> _ _; apply/orP; case: (Rle_or_lt x y) => h; [left|right]; apply/leRP => //; exact: Rlt_le. Qed.
Lemma normRM : {morph Rabs : x y / x * y}.
Proof. exact: Rabs_mult. Qed.
Lemma leR_def x y : leR x y = (Rabs (y - x) == y - x).
Proof.
apply/leRP/eqP => h; first by apply: Rabs_right; apply/Rge_minus/Rle_ge.
have := Rabs_pos (GRing.add y (GRing.opp x)); rewrite h.
rewrite /GRing.add /GRing.opp /=; lra.
Qed.
Lemma ltR_def x y : ltR x y = (y != x) && leR x y.
Proof.
apply/ltRP/idP; first by move=> h; apply/andP; split; [apply/eqP => e; rewrite e in h; exact: (Rlt_irrefl x)|apply/leRP; lra].
by case/andP => /eqP h /leRP [] // e; case: h.
Qed.
Definition R_numMixin := NumMixin leR_norm_add addR_gt0 normR0_eq0 leR_total0 normRM leR_def ltR_def.
Canonical R_porderType := Eval hnf in POrderType ring_display R R_numMixin.
Canonical R_numDomainType := Eval hnf in NumDomainType R R_numMixin.
Canonical R_normedZmodType := Eval hnf in NormedZmodType R R R_numMixin.
Canonical R_numFieldType := Eval hnf in [numFieldType of R].
Lemma R_total : totalPOrderMixin [porderType of R].
Proof. by move=> x y; apply/orP; case: (Rle_or_lt x y) => h; [left|right]; apply/leRP => //; exact: Rlt_le. Qed.
Canonical R_latticeType := Eval hnf in LatticeType R R_total.
Canonical R_distrLatticeType := Eval hnf in DistrLatticeType R R_total.
Canonical R_orderType := Eval hnf in OrderType R R_total.
Canonical R_realDomainType := Eval hnf in [realDomainType of R].
Canonical R_realFieldType := Eval hnf in [realFieldType of R].

(* the two notations agree *)
Lemma RplusE (x y : R) : x + y = Rplus x y. Proof. by []. Qed.
Lemma RmultE (x y : R) : x * y = Rmult x y. Proof. by []. Qed.
Lemma RoppE (x : R) : - x = Ropp x. Proof. by []. Qed.
Lemma RminusE (x y : R) : x - y = Rminus x y. Proof. by []. Qed.
Lemma RinvE (x : R) : x^-1 = Rinv x. Proof. by []. Qed.
Lemma RdivE (x y : R) : x / y = Rdiv x y. Proof. by []. Qed.
Lemma R0E : 0 = R0 :> R. Proof. by []. Qed.
Lemma R1E : 1 = R1 :> R. Proof. by []. Qed.
Lemma RleP (x y : R) : reflect (Rle x y) (x <= y). Proof. exact: leRP. Qed.
Lemma RltP (x y : R) : reflect (Rlt x y) (x < y). Proof. exact: ltRP. Qed.
Lemma RnormE (x : R) : `|x| = Rabs x. Proof. by []. Qed.
Lemma RexpE (x : R) n : x ^+ n = pow x n.
Proof. by elim: n => [|n IH] //; rewrite exprS IH. Qed.
Lemma RnatE n : n%:R = INR n :> R.
Proof. by elim: n => [|n IH] //; rewrite S_INR -IH mulrSr. Qed.
Definition RE := (RplusE, RmultE, RoppE, RinvE, R0E, R1E).
