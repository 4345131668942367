(* Sums, products, scalings and linear combinations of positive semi-definite functions. *)
From mathcomp Require Import all_ssreflect all_algebra.
From Verif Require Import GpSpec PsdProofs CallerModel CallerSpec CallerProofs CallerProofs2.
Set Implicit Arguments.
Unset Strict Implicit.
Unset Printing Implicit Defensive.
Import Order.TTheory GRing.Theory Num.Theory.
Local Open Scope ring_scope.

Section Schur.
Variable R : realFieldType.

Definition entrywise n (A B : 'M[R]_n) : 'M[R]_n := \matrix_(i, j) (A i j * B i j).
Lemma quadE n (A : 'M[R]_n) x : quad A x = \sum_i \sum_j x i 0 * A i j * x j 0.
Proof.
rewrite /quad mxE exchange_big; apply: eq_bigr => j _; rewrite mxE mulr_suml; apply: eq_bigr => i _.
by rewrite mxE.
Qed.

(* a psd matrix is a sum of d l l^T with d >= 0 *)
Lemma psd_decompose n (A : 'M[R]_n) : psd A ->
  exists m (d : 'I_m -> R) (l : 'I_m -> 'I_n -> R), (forall k, 0 <= d k) /\
    forall i j, A i j = \sum_k d k * l k i * l k j.
Proof.
elim: n A => [|n IH] A pA.
  by exists 0%N, (fun _ => 0), (fun _ _ => 0); split=> // -[].
have sA : A^T = A by case: pA.
pose a := A 0 0; have a0 : 0 <= a by exact: psd_diag_ge0.
pose C : 'M[R]_n := \matrix_(i, j) (A (lift 0 i) (lift 0 j) - A 0 (lift 0 i) * A 0 (lift 0 j) / a).
have Asym i j : A i j = A j i by rewrite -{1}sA mxE.
have pC : psd C.
  split; first by apply/matrixP => i j; rewrite !mxE Asym [A 0 _ * _]mulrC.
  move=> x; rewrite quadE.
  case: (eqVneq a 0) => [az|anz].
    have := psd_mxsub (lift ord0) pA => -[_ /(_ x)]; rewrite quadE.
    by under eq_bigr do under eq_bigr do rewrite !mxE; under [X in _ -> 0 <= X]eq_bigr do under eq_bigr do rewrite mxE az invr0 mulr0 subr0.
  pose b := \sum_i A 0 (lift 0 i) * x i 0.
  pose y : 'cV[R]_n.+1 := \col_i (if unlift 0 i is Some j then x j 0 else - (b / a)).
  case: pA => _ /(_ y); rewrite quadE.
  have y0 : y 0 0 = - (b / a) by rewrite mxE unlift_none.
  have yl i : y (lift 0 i) 0 = x i 0 by rewrite mxE liftK.
  rewrite big_ord_recl big_ord_recl /= y0.
  have -> : \sum_(i < n) - (b / a) * A 0 (lift 0 i) * y (lift 0 i) 0 = - (b / a) * b.
    by rewrite /b mulr_sumr; apply: eq_bigr => i _; rewrite yl mulrA.
  have -> : \sum_(i < n) \sum_(j < n.+1) y (lift 0 i) 0 * A (lift 0 i) j * y j 0 =
    - (b / a) * b + \sum_(i < n) \sum_(j < n) x i 0 * A (lift 0 i) (lift 0 j) * x j 0.
    rewrite /b mulr_sumr -big_split; apply: eq_bigr => i _ /=; rewrite big_ord_recl /= y0 yl.
    congr (_ + _); first by rewrite (Asym _ 0) mulrC; congr (_ * _); exact: mulrC.
    by apply: eq_bigr => j _; rewrite yl.
  have -> : \sum_(i < n) \sum_(j < n) x i 0 * C i j * x j 0 =
     \sum_(i < n) \sum_(j < n) x i 0 * A (lift 0 i) (lift 0 j) * x j 0 - b * b / a.
    have -> : b * b / a = \sum_(i < n) \sum_(j < n) x i 0 * (A 0 (lift 0 i) * A 0 (lift 0 j) / a) * x j 0.
      rewrite {1}/b !mulr_suml; apply: eq_bigr => i _; rewrite /b mulr_sumr mulr_suml; apply: eq_bigr => j _.
      by rewrite mulrACA [RHS]mulrAC [RHS]mulrC [RHS]mulrAC.
    rewrite -sumrB; apply: eq_bigr => i _; rewrite -sumrB; apply: eq_bigr => j _.
    by rewrite !mxE mulrBr mulrBl.
  have -> : - (b / a) * A 0 0 * - (b / a) = b * b / a.
    by rewrite -/a !mulNr mulrN opprK divfK // mulrA.
  by rewrite !mulNr mulrAC addrA subrr add0r addrC.
case: (IH C pC) => m [d [l [d0 dE]]].
exists m.+1, (fun k => if unlift 0 k is Some k' then d k' else (if a == 0 then 0 else a^-1)),
  (fun k i => if unlift 0 k is Some k' then (if unlift 0 i is Some i' then l k' i' else 0) else A 0 i).
split.
  by move=> k; case: (unlift 0 k) => [k'|] //; case: eqP => // _; rewrite invr_ge0.
have row0 : a = 0 -> forall j, A 0 j = 0.
  move=> az j; case: (eqVneq j 0) => [->//|nj].
  (* the 2 x 2 minor *)
  apply/eqP; apply: contraT => nz.
  pose t := (A j j + 1) / (2%:R * A 0 j).
  pose y : 'cV[R]_n.+1 := \col_i (if i == 0 then - t else if i == j then 1 else 0).
  case: pA => _ /(_ y); rewrite quadE.
  have two (G : 'I_n.+1 -> R) : (forall k, k != 0 -> k != j -> G k = 0) -> \sum_k G k = G 0 + G j.
    move=> hG; rewrite (bigD1 0) //= (bigD1 j) //= big1 ?addr0 // => k /andP[k0 kj]; exact: hG.
  have sumE i : \sum_k y i 0 * A i k * y k 0 = y i 0 * A i 0 * y 0 0 + y i 0 * A i j * y j 0.
    by apply: (two (fun k => y i 0 * A i k * y k 0)) => k k0 kj; rewrite [y k 0]mxE (negbTE k0) (negbTE kj) mulr0.
  rewrite (two (fun i => \sum_k y i 0 * A i k * y k 0)); last first.
    by move=> i i0 ij; rewrite big1 // => k _; rewrite mxE (negbTE i0) (negbTE ij) !mul0r.
  rewrite !sumE ![y 0 0]mxE ![y j 0]mxE !eqxx (negbTE nj) -/a az mulr0 mul0r add0r !mulr1 !mul1r.
  rewrite (Asym j 0) => h.
  have tE : t * A 0 j = (A j j + 1) / 2%:R.
    by rewrite /t invfM mulrA -mulrA [_^-1 * A 0 j]mulrC divff // mulr1.
  move: h; rewrite mulNr mulrN tE [A 0 j * t]mulrC tE addrA -opprD -mulr2n -[_ *+ 2]mulr_natr -mulrA mulVf ?mulr1; last by rewrite pnatr_eq0.
  by rewrite opprD addrAC addNr add0r ler0N1.
move=> i j; rewrite big_ord_recl unlift_none.
under eq_bigr do rewrite liftK.
case: (eqVneq a 0) => [az|anz].
  rewrite !mul0r add0r.
  case: (unliftP 0 i) => [i' ->|->]; last by rewrite (row0 az) big1 // => k _; rewrite mulr0 mul0r.
  case: (unliftP 0 j) => [j' ->|->]; last by rewrite Asym (row0 az) big1 // => k _; rewrite mulr0.
  by rewrite -dE mxE (row0 az) !mul0r subr0.
case: (unliftP 0 i) => [i' ->|->]; last first.
  rewrite big1 ?addr0; last by move=> k _; rewrite mulr0 mul0r.
  by rewrite -/a mulVf // mul1r.
case: (unliftP 0 j) => [j' ->|->]; last first.
  rewrite big1 ?addr0; last by move=> k _; rewrite mulr0.
  by rewrite -/a mulrC mulrA divff // mul1r Asym.
rewrite -dE mxE.
by rewrite -mulrA [a^-1 * _]mulrC [RHS]addrC subrK.
Qed.

Theorem schur_product n (A B : 'M[R]_n) : psd A -> psd B -> psd (entrywise A B).
Proof.
move=> pA pB; split.
  by case: pA => sA _; case: pB => sB _; apply/matrixP => i j; rewrite !mxE -{1}sA -{1}sB !mxE.
case: (psd_decompose pA) => m [d [l [d0 dE]]] x; rewrite quadE.
have -> : \sum_i \sum_j x i 0 * entrywise A B i j * x j 0 =
   \sum_k d k * quad B (\col_i (l k i * x i 0)).
  under [RHS]eq_bigr do rewrite quadE mulr_sumr.
  rewrite [RHS]exchange_big /=; apply: eq_bigr => i _.
  under [RHS]eq_bigr do rewrite mulr_sumr.
  rewrite [RHS]exchange_big /=; apply: eq_bigr => j _.
  rewrite mxE dE !mulr_suml mulr_sumr mulr_suml; apply: eq_bigr => k _; rewrite !mxE.
  rewrite -!mulrA [LHS]mulrCA; congr (_ * _).
  rewrite [LHS]mulrCA; congr (_ * (_ * _)).
  by rewrite [LHS]mulrCA.
apply: sumr_ge0 => k _; apply: mulr_ge0 => //; by case: pB.
Qed.

Lemma psd_scaled n (w : 'I_n -> R) (A : 'M[R]_n) : psd A -> psd (\matrix_(i, j) (w i * A i j * w j)).
Proof.
case=> sA hA; split.
  by apply/matrixP => i j; rewrite !mxE -{1}sA mxE mulrC [w j * _]mulrC mulrA.
move=> x; have := hA (\col_i (w i * x i 0)); rewrite !quadE.
congr (0 <= _); apply: eq_bigr => i _; apply: eq_bigr => j _; rewrite !mxE.
by rewrite !mulrA [x i 0 * _]mulrC.
Qed.
End Schur.

Section Closure.
Variable F : realFieldType.
Variable P : Type.
Notation point := (nat * P)%type.
Notation object := (bool * point)%type.
Notation val := (val F P).

Lemma meaning_undef (e : cov_expr F P) m (x y : point) : ~~ defined_on e x.1 y.1 -> meaning e m x y = 0.
Proof.
elim: e m => [d k|l IHl r IHr|l IHl r IHr|e IH|f s e IH|e IH f s] m /=.
- by rewrite negb_or => /andP[/negbTE -> /negbTE ->].
- by rewrite negb_or => /andP[/IHl -> /IHr ->]; rewrite addr0.
- by rewrite negb_or => /andP[/negbTE -> /negbTE ->].
- by move=> /IH ->; case: m.
- by move=> /IH ->; rewrite mulr0 mul0r.
- by move=> /IH ->; rewrite mulr0 mul0r.
Qed.

Lemma objects_psd (e : cov_expr F P) : psd_built e ->
  forall n (o : 'I_n -> object), psd (\matrix_(i, j) meaning e ((o i).1 && (o j).1) (o i).2 (o j).2).
Proof.
elim: e => [d k|l IHl r IHr|l IHl r IHr|e IH|f s e IH|e IH f s] /=.
- by move=> h n o; exact: (h n (fun i => (o i).2)).
- move=> [/IHl pl /IHr pr] n o; have := psdD (pl n o) (pr n o).
  congr (psd _); apply/matrixP => i j; rewrite !mxE //.
- move=> [/IHl pl [/IHr pr dE]] n o; have := schur_product (pl n o) (pr n o).
  congr (psd _); apply/matrixP => i j; rewrite !mxE -dE.
  case h: (defined_on l _ _) => //.
  by rewrite meaning_undef ?mul0r // h.
- move=> /IH p n o; have := psd_scaled (fun i => if (o i).1 then 1 else 0) (p n (fun i => (false, (o i).2))).
  congr (psd _); apply/matrixP => i j; rewrite !mxE /=.
  by case: (o i).1; case: (o j).1; rewrite /= ?mul1r ?mulr1 ?mulr0 ?mul0r.
- move=> /IH p n o; have := psd_scaled (fun i => weight f s (o i).2) (p n o).
  by congr (psd _); apply/matrixP => i j; rewrite !mxE.
- move=> /IH p n o; have := psd_scaled (fun i => weight f s (o i).2) (p n o).
  by congr (psd _); apply/matrixP => i j; rewrite !mxE.
Qed.

Variable e : cov_expr F P.
Hypothesis es : leaves_symmetric e.
Hypothesis pe : psd_built e.
Lemma pairing_ge0 (A : seq (F * object)) : 0 <= pairing e A A.
Proof.
case: A => [|a0 A0]; first by rewrite pairing_nil.
set A := a0 :: A0.
have := objects_psd pe (n := size A) (fun i => (nth a0 A i).2) => -[_ /(_ (\col_i (nth a0 A i).1))].
rewrite quadE /pairing (big_nth a0) big_mkord; congr (0 <= _); apply: eq_bigr => i _.
rewrite (big_nth a0) big_mkord; apply: eq_bigr => j _; rewrite !mxE.
by rewrite mulrAC.
Qed.
Theorem covariance_psd n (x : 'I_n -> val) : psd (\matrix_(i, j) covariance e (x i) (x j)).
Proof.
split; first by apply/matrixP => i j; rewrite !mxE (cov_sym es).
move=> v; rewrite quadE.
pose A := flatten [seq [seq (v i 0 * a.1, a.2) | a <- expand (x i)] | i <- enum 'I_n].
suff -> : \sum_i \sum_j v i 0 * (\matrix_(i, j) covariance e (x i) (x j)) i j * v j 0 = pairing e A A by exact: pairing_ge0.
have hA B : pairing e A B = \sum_i v i 0 * pairing e (expand (x i)) B.
  rewrite /A -big_enum; elim: (enum _) => [|i l IH] /=; first by rewrite pairing_nil big_nil.
  by rewrite pairing_cat pairing_scale IH big_cons.
rewrite hA; apply: eq_bigr => i _; rewrite (pairing_sym es) hA mulr_sumr; apply: eq_bigr => j _.
by rewrite mxE covE (pairing_sym es) -mulrA; congr (_ * _); rewrite mulrC.
Qed.
End Closure.
