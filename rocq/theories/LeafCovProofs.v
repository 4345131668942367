From mathcomp Require Import all_ssreflect all_algebra.
From Verif Require Import GpSpec PsdProofs LeafCovModel.
Set Implicit Arguments.
Unset Strict Implicit.
Unset Printing Implicit Defensive.
Import Order.TTheory GRing.Theory Num.Theory.
Local Open Scope ring_scope.

Section Ring.
Variable F : comRingType.
Lemma foldl_sum (f : nat -> F) (s : seq nat) a : foldl (fun c i => c + f i) a s = a + \sum_(i <- s) f i.
Proof. by elim: s a => [|i s IH] a; rewrite ?big_nil ?addr0 // big_cons /= IH addrA. Qed.
Lemma polynomial_sum order (sigma : nat -> F) x y :
  polynomial order sigma x y = \sum_(i < order.+1) sigma i * sigma i * x ^+ i * y ^+ i.
Proof.
rewrite /polynomial (foldl_sum (fun i => sigma i * sigma i * x ^+ i * y ^+ i)) add0r.
by rewrite -(big_mkord xpredT (fun i => sigma i * sigma i * x ^+ i * y ^+ i)) /index_iota subn0.
Qed.
Lemma polynomial_sym order (sigma : nat -> F) x y : polynomial order sigma x y = polynomial order sigma y x.
Proof. by rewrite !polynomial_sum; apply: eq_bigr => i _; rewrite mulrAC. Qed.
(* a combination of polynomial covariances is a polynomial *)
Definition combination order (sigma : nat -> F) n (xs : 'I_n -> F) (w : 'cV[F]_n) : {poly F} :=
  \poly_(d < order.+1) (sigma d * sigma d * \sum_i xs i ^+ d * w i 0).
Lemma combination_horner order (sigma : nat -> F) n (xs : 'I_n -> F) (w : 'cV[F]_n) z :
  \sum_i polynomial order sigma (xs i) z * w i 0 = (combination order sigma xs w).[z].
Proof.
rewrite horner_poly; under eq_bigr => i _ do rewrite polynomial_sum mulr_suml.
rewrite exchange_big /=; apply: eq_bigr => d _; rewrite mulr_sumr mulr_suml.
apply: eq_bigr => i _; rewrite -!mulrA; congr (_ * (_ * _)).
by rewrite mulrCA mulrC mulrA.
Qed.
End Ring.

Section Real.
Variable R : realFieldType.
Lemma pd1 n : pd (1%:M : 'M[R]_n).
Proof.
have -> : (1%:M : 'M[R]_n) = diag_mx (const_mx 1 : 'cV[R]_n)^T.
  by apply/matrixP => i j; rewrite !mxE.
by apply: pd_diag => i; rewrite mxE ltr01.
Qed.
Lemma psd_gram_mx n m (E : 'M[R]_(n, m)) : psd (E^T *m E).
Proof. by have := psd_congr E (pd_psd (pd1 n)); rewrite mulmx1. Qed.

Section Noise.
Variable X : Type.
Variable same : X -> X -> bool.
Hypothesis sym : forall x y, same x y = same y x.
Hypothesis trans : forall x y z, same x y -> same y z -> same x z.
Variables (n : nat) (xs : 'I_n -> X).
Definition class (i : 'I_n) : option 'I_n := [pick k | same (xs k) (xs i)].
Definition class_mx : 'M[R]_n := \matrix_(k, i) (class i == Some k)%:R.
Lemma class_eq i j : same (xs i) (xs j) -> class i = class j.
Proof.
move=> h; apply: eq_pick => m; apply/idP/idP => hm; first exact: trans hm h.
by apply: trans hm _; rewrite sym.
Qed.
Lemma class_spec i k : class i = Some k -> same (xs k) (xs i).
Proof. by rewrite /class; case: pickP => // m hm [<-]. Qed.
Lemma class_some i j : same (xs i) (xs j) -> exists k, class i = Some k.
Proof.
move=> h; rewrite /class; case: pickP => [k _|/(_ j)]; first by exists k.
by rewrite sym h.
Qed.
Lemma class_gram i j : (class_mx^T *m class_mx) i j = (same (xs i) (xs j))%:R.
Proof.
rewrite mxE; under eq_bigr => k _ do rewrite !mxE -natrM mulnb.
case: (boolP (same (xs i) (xs j))) => h.
  have [k e] := class_some h; rewrite (bigD1 k) //= -(class_eq h) e eqxx /= big1 ?addr0 // => m hm.
  by rewrite (inj_eq Some_inj) eq_sym (negbTE hm).
rewrite big1 // => k _; case: eqP => //= /class_spec hi; case: eqP => //= /class_spec hj.
by case/negP: h; apply: trans hj; rewrite sym.
Qed.
Lemma noise_gram (sigma : R) : \matrix_(i, j) independent_noise same sigma (xs i) (xs j) =
  (sigma * sigma) *: (class_mx^T *m class_mx).
Proof.
apply/matrixP => i j; rewrite [LHS]mxE [RHS]mxE class_gram /independent_noise.
by case: (same _ _); rewrite ?mulr1 ?mulr0.
Qed.
Lemma noise_psd (sigma : R) : psd (\matrix_(i, j) independent_noise same sigma (xs i) (xs j)).
Proof. by rewrite noise_gram; apply: psdZ; [rewrite -expr2 sqr_ge0|exact: psd_gram_mx]. Qed.
End Noise.

Lemma noise_distinct X (same : X -> X -> bool) n (xs : 'I_n -> X) (sigma : R) :
  (forall i j, same (xs i) (xs j) = (i == j)) ->
  \matrix_(i, j) independent_noise same sigma (xs i) (xs j) = (sigma ^+ 2)%:M.
Proof.
move=> h; apply/matrixP => i j; rewrite !mxE /independent_noise h expr2.
by case: (i == j); rewrite ?mulr1n ?mulr0n.
Qed.
Lemma pd_scalar n (c : R) : 0 < c -> pd (c%:M : 'M[R]_n).
Proof.
move=> h; have -> : (c%:M : 'M[R]_n) = diag_mx (const_mx c : 'cV[R]_n)^T.
  by apply/matrixP => i j; rewrite !mxE.
by apply: pd_diag => i; rewrite mxE.
Qed.

Definition vandermonde order (sigma : nat -> R) n (xs : 'I_n -> R) : 'M[R]_(order.+1, n) :=
  \matrix_(d, i) (sigma d * xs i ^+ d).
Lemma polynomial_gram order sigma n (xs : 'I_n -> R) : \matrix_(i, j) polynomial order sigma (xs i) (xs j) =
  (vandermonde order sigma xs)^T *m vandermonde order sigma xs.
Proof.
apply/matrixP => i j; rewrite [LHS]mxE polynomial_sum [RHS]mxE; apply: eq_bigr => d _.
by rewrite !mxE -!mulrA; congr (_ * _); rewrite mulrCA.
Qed.
Lemma polynomial_psd order sigma n (xs : 'I_n -> R) : psd (\matrix_(i, j) polynomial order sigma (xs i) (xs j)).
Proof. by rewrite polynomial_gram; exact: psd_gram_mx. Qed.
Lemma polynomial_rank order sigma n (xs : 'I_n -> R) :
  (\rank (\matrix_(i, j) polynomial order sigma (xs i) (xs j)) <= order.+1)%N.
Proof. by rewrite polynomial_gram; apply: leq_trans (mulmx_max_rank _ _) _. Qed.
Lemma constant_polynomial (sigma : nat -> R) x y : constant (sigma 0%N) x y = polynomial 0 sigma x y.
Proof. by rewrite polynomial_sum big_ord1 !expr0 !mulr1. Qed.
Lemma constant_psd X (sigma : R) n (xs : 'I_n -> X) : psd (\matrix_(i, j) constant sigma (xs i) (xs j)).
Proof.
have -> : \matrix_(i, j) constant sigma (xs i) (xs j) =
    \matrix_(i, j) polynomial 0 (fun _ => sigma) ((fun _ => 0) i) ((fun _ => 0) j).
  by apply/matrixP => i j; rewrite !mxE -(constant_polynomial (fun _ => sigma)).
exact: polynomial_psd.
Qed.
End Real.
