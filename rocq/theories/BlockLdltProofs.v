From Coq Require Import Reals.
From Verif Require Import Base.
From mathcomp Require Import all_ssreflect all_algebra.
From Verif Require Import RealStruct LdltModel LdltSpec LdltProofs GpProofs PsdProofs BlockDiagModel BlockDiagSpec BlockDiagProofs BlockLdltModel BlockLdltSpec.
Set Implicit Arguments.
Unset Strict Implicit.
Unset Printing Implicit Defensive.
Import Order.TTheory GRing.Theory Num.Theory.
Local Open Scope ring_scope.

Lemma rsum_big n (f : nat -> R) : rsum f n = \sum_(k < n) f k.
Proof. by elim: n => [|n IH] /=; rewrite ?big_ord0 // big_ord_recr /= IH. Qed.

Lemma dmx_ofE m p (M : 'M[R]_(m, p)) (i : 'I_m) (j : 'I_p) : dat (dmx_of M) i j = M i j.
Proof. by rewrite /= !valK. Qed.
Lemma dmx_of_lt m p (M : 'M[R]_(m, p)) i j (hi : (i < m)%N) (hj : (j < p)%N) :
  dat (dmx_of M) i j = M (Ordinal hi) (Ordinal hj).
Proof. exact: (dmx_ofE M (Ordinal hi) (Ordinal hj)). Qed.

Lemma multiplies_mx n (M : 'M[R]_n) (op : dmx -> outcome dmx) :
  (forall x, drows x = n -> op x = Ok (dmx_of (M *m mx_in n x))) -> multiplies op (dmx_of M).
Proof.
move=> H x /= Hx; rewrite (H x Hx); eexists; split; first by [].
split=> //; split=> // i j /ssrnat.ltP Hi /ssrnat.ltP Hj.
rewrite (dmx_of_lt _ Hi Hj) mxE rsum_big; apply: eq_bigr => k _.
by rewrite [mx_in _ _ _ _]mxE -(dmx_ofE M).
Qed.

Lemma inverse_mx n (A : 'M[R]_n) : A \in unitmx -> inverse_of (dmx_of A) (dmx_of (invmx A)).
Proof.
move=> Au; split=> //; split=> //; split=> // i j /= /ssrnat.ltP Hi /ssrnat.ltP Hj.
have /matrixP /(_ (Ordinal Hi) (Ordinal Hj)) := mulmxV Au.
rewrite !mxE rsum_big => E; transitivity ((Ordinal Hi == Ordinal Hj)%:R : R).
  rewrite -E; apply: eq_bigr => k _.
  by rewrite -(dmx_ofE A) -(dmx_ofE (invmx A)).
by rewrite -val_eqE /= -[PeanoNat.Nat.eqb i j]/(i == j :> nat); case: (i == j).
Qed.

Lemma root_mx n (A S : 'M[R]_n) : S *m S^T = A -> root_of (dmx_of A) (dmx_of S).
Proof.
move=> SA; split=> //; split=> //; split=> // i j /= /ssrnat.ltP Hi /ssrnat.ltP Hj.
rewrite -[RHS]/(dat (dmx_of A) i j) (dmx_of_lt A Hi Hj) -SA mxE rsum_big; apply: eq_bigr => k _.
by rewrite [S^T _ _]mxE -!(dmx_ofE S).
Qed.

Lemma acts_solve tolerance (b : factored) : factors (fb_f b) (fb_A b) -> 0 <= tolerance ->
  (forall i, tolerance < `|vectorD (fb_f b) i 0|) ->
  acts lb_solve (block_of tolerance (existT _ _ (fb_f b)) (odflt 0 (log_determinant (fb_f b)))) (dmx_of (invmx (fb_A b))) /\
  inverse_of (dmx_of (fb_A b)) (dmx_of (invmx (fb_A b))).
Proof.
case: b => n f A /= fA t0 Dt; split; last first.
  by apply: inverse_mx; have [] := ldlt_solveE (1%:M : 'M[R]_n) fA Dt t0.
split=> //; split=> //; apply: multiplies_mx => x Hx /=; rewrite Hx eqxx.
by have [_ ->] := ldlt_solveE (mx_in n x) fA Dt t0.
Qed.

Lemma acts_sqrt tolerance (b : factored) : factors (fb_f b) (fb_A b) -> positive_D (fb_f b) ->
  exists S : 'M[R]_(fb_n b),
  acts lb_sqrt_solve (block_of tolerance (existT _ _ (fb_f b)) (odflt 0 (log_determinant (fb_f b)))) (dmx_of (invmx S)) /\
  inverse_of (dmx_of S) (dmx_of (invmx S)) /\ root_of (dmx_of (fb_A b)) (dmx_of S).
Proof.
case: b => n f A /= fA Dp; exists (S_mx f); have [Su Si] := unit_of_right (S_Si Dp).
split; last first.
  split; first exact: inverse_mx.
  by apply: root_mx; apply: S_sq => // i; exact: ltW.
split=> //; split=> //; apply: multiplies_mx => x Hx /=; rewrite Hx eqxx.
by rewrite sqrt_solveE Si.
Qed.

(* ---- determinant ---- *)
Lemma det_dense (bs : seq factored) :
  \det (square_mx (sum_rows (dense_blocks bs)) (dense_at (dense_blocks bs))) = \prod_(b <- bs) \det (fb_A b).
Proof.
elim: bs => [|b bs IH]; first by rewrite big_nil det_mx00.
rewrite big_cons -IH -[X in _ = _ * X]mul1r.
have -> : square_mx (sum_rows (dense_blocks (b :: bs))) (dense_at (dense_blocks (b :: bs))) =
  block_mx (fb_A b) 0 0 (square_mx (sum_rows (dense_blocks bs)) (dense_at (dense_blocks bs)))
    :> 'M[R]_(fb_n b + sum_rows (dense_blocks bs)).
  apply/matrixP => i j; rewrite [LHS]mxE.
  have lt_nat a c : PeanoNat.Nat.ltb a c = (a < c)%N by apply/PeanoNat.Nat.ltb_spec0/ssrnat.ltP.
  case: (split_ordP i) => i' ->; case: (split_ordP j) => j' ->; rewrite ?block_mxEul ?block_mxEur ?block_mxEdl ?block_mxEdr ?[RHS]mxE /= ?lt_nat ?ltn_ord.
  - by rewrite !valK.
  - by rewrite ltnNge leq_addr.
  - by rewrite ltnNge leq_addr.
  - rewrite !ltnNge !leq_addr /=; congr dense_at.
    + by rewrite -[LHS]/(fb_n b + i' - fb_n b)%N addKn.
    + by rewrite -[LHS]/(fb_n b + j' - fb_n b)%N addKn.
by rewrite det_ublock mul1r.
Qed.

Lemma ldlt_log_big tolerance (bs : seq factored) :
  (forall b, List.In b bs -> factors (fb_f b) (fb_A b) /\ positive_D (fb_f b)) ->
  0 < \prod_(b <- bs) \det (fb_A b) /\
  ldlt_log_determinant (ldlt_blocks tolerance bs) = Rpower.ln (\prod_(b <- bs) \det (fb_A b)).
Proof.
move=> H; rewrite /ldlt_log_determinant.
suff G : forall acc, 0 < \prod_(b <- bs) \det (fb_A b) /\
  List.fold_left (fun out b => Rplus out (lb_log_determinant b)) (ldlt_blocks tolerance bs) acc =
  acc + Rpower.ln (\prod_(b <- bs) \det (fb_A b)).
  by have [p ->] := G R0; rewrite add0r.
elim: bs H => [|b bs IH] H acc.
  by rewrite big_nil /= ln_1 addr0; split => //; exact: ltr01.
have [fA Dp] := H b (or_introl erefl).
have [d0 Hl] := log_determinant_correct fA Dp.
have [p0 E] := IH (fun b' i => H b' (or_intror i)) (Rplus acc (Rpower.ln (\det (fb_A b)))).
rewrite big_cons; split; first exact: mulr_gt0.
rewrite /= Hl /= -/(ldlt_blocks tolerance bs) E.
rewrite ln_mult; [by rewrite -addrA|exact/RltP|exact/RltP].
Qed.
