(* Property C87 of properties.jsonl: random covariance matrices and samples of a normal distribution. *)
From Coq Require Import Reals.
From Verif Require Import Base.
From mathcomp Require Import all_ssreflect all_algebra.
From Verif Require Import RealStruct GpModel GpSpec PsdProofs SparseGpExamples LdltProofs WassersteinSpec RandomGaussianModel ChiSquaredVectorProps.
Set Implicit Arguments.
Unset Strict Implicit.
Unset Printing Implicit Defensive.
Import Order.TTheory GRing.Theory Num.Theory.
Local Open Scope ring_scope.

(* the Q of a QR decomposition is orthogonal *)
Definition matrixQ_contract (matrixQ : forall k, 'M[R]_k -> 'M[R]_k) : Prop := forall k (A : 'M[R]_k), (matrixQ k A)^T *m matrixQ k A = 1%:M.
(* every value drawn satisfies P *)
Definition always G (P : R -> Prop) (dist : distribution G) : Prop := forall g, P (dist g).1.

Section C87.
Variable G : Type.
Variables normal_distribution gamma_distribution : R -> R -> distribution G.
Variable matrixQ : forall k, 'M[R]_k -> 'M[R]_k.
Variable llt : forall n, 'M[R]_n -> 'M[R]_n.
Hypothesis hQ : matrixQ_contract matrixQ.
Hypothesis hl : llt_contract llt.
Local Notation cov_matrix := (random_covariance_matrix normal_distribution matrixQ).
Local Notation sample_normal := (random_multivariate_normal normal_distribution llt).

Lemma draw_length (dist : distribution G) k g : length (draw dist k g).1 = k.
Proof. by elim: k g => //= k IH g; case: (dist g) => x g1; move: (IH g1); case: (draw dist k g1) => xs g2 /= ->. Qed.
Lemma draw_always (P : R -> Prop) (dist : distribution G) k g i : always P dist -> (i < k)%N -> P (nth 0 (draw dist k g).1 i).
Proof.
move=> hP; elim: k g i => //= k IH g i; move: (hP g); case: (dist g) => x g1 /= Px; move: (IH g1); case: (draw dist k g1) => xs g2 /= {}IH.
by case: i => [|i] //= hi; apply: IH.
Qed.
Lemma fill_always (P : R -> Prop) (dist : distribution G) n m g i j : always P dist -> P ((random_fill n m dist g).1 i j).
Proof.
move=> hP; rewrite /random_fill; have := draw_always g (i := (j * n + i)%N) hP (k := (n * m)%N).
case: (draw dist (n * m) g) => xs g' /= h; rewrite mxE; apply: h.
by rewrite (mulnC n); apply: (@leq_trans (j.+1 * n)); [rewrite mulSnr ltn_add2l|rewrite leq_mul2r (ltn_ord j) orbT].
Qed.

(* the matrix is orthogonally similar to the diagonal matrix of the values drawn from the distribution of the eigenvalues *)
Theorem C87_covariance k (eigenvalues : distribution G) g : exists (d : 'cV[R]_k) V,
  spectral d V (cov_matrix k eigenvalues g).1 /\ (exists g', d = (random_fill k 1 eigenvalues g').1) /\
  \tr (cov_matrix k eigenvalues g).1 = \sum_i d i 0 /\ \det (cov_matrix k eigenvalues g).1 = \prod_i d i 0.
Proof.
rewrite /random_covariance_matrix /gaussian_fill; case: (random_fill k k _ g) => Z g1; case E: (random_fill k 1 eigenvalues g1) => [d g2] /=.
exists d, (matrixQ Z); have q := hQ Z; split; first by split.
split; first by exists g1; rewrite E.
split; first by rewrite mxtrace_mulC mulmxA q mul1mx mxtrace_diag; apply: eq_bigr => i _; rewrite mxE.
rewrite !det_mulmx det_diag mulrAC -det_mulmx.
have -> : \det (matrixQ Z *m (matrixQ Z)^T) = 1 by rewrite det_mulmx mulrC -det_mulmx q det1.
by rewrite mul1r; apply: eq_bigr => i _; rewrite mxE.
Qed.
(* so it is a covariance matrix if the eigenvalues drawn are not negative, and invertible if they are positive *)
Theorem C87_covariance_psd k (eigenvalues : distribution G) g : always (fun x => 0 <= x) eigenvalues -> psd (cov_matrix k eigenvalues g).1.
Proof.
move=> h; have [d [V [[_ ->] [[g' ->] _]]]] := C87_covariance k eigenvalues g.
rewrite -{1}[V]trmxK; apply: psd_congr; apply: psd_diag => i; exact: (fill_always _ _ _ h).
Qed.
Theorem C87_covariance_pd k (eigenvalues : distribution G) g : always (fun x => 0 < x) eigenvalues -> pd (cov_matrix k eigenvalues g).1.
Proof.
move=> h; have [d [V [[o ->] [[g' ->] _]]]] := C87_covariance k eigenvalues g.
rewrite -{1}[V]trmxK; apply: (pd_congr (L := V)); first by apply: mulmx1C.
by apply: pd_diag => i; exact: (fill_always _ _ _ h).
Qed.

(* by default the eigenvalues are from the gamma distribution with shape and scale 1 *)
Theorem C87_covariance_gamma k g : exists (d : 'cV[R]_k) V g',
  spectral d V (random_covariance_matrix_gamma normal_distribution gamma_distribution matrixQ k g).1 /\
  d = (random_fill k 1 (gamma_distribution 1 1) g').1.
Proof. by have [d [V [h [[g' e] _]]]] := C87_covariance k (gamma_distribution 1 1) g; exists d, V, g'. Qed.

(* a sample is the mean plus a fixed square root of the covariance times the next n standard normal values *)
Theorem C87_normal n (cov : 'M[R]_n) : pd cov -> exists L : 'M[R]_n, L *m L^T = cov /\
  forall mean g, sample_normal mean cov g =
    Base.Ok (mean + L *m (random_fill n 1 (normal_distribution 0 1) g).1, (random_fill n 1 (normal_distribution 0 1) g).2).
Proof.
move=> hp; exists (llt cov); have [_ E] := hl hp; split=> // mean g.
rewrite /random_multivariate_normal /gaussian_fill !eqxx /= conform_mx_id.
by case: (random_fill _ _ _ _) => z g' /=; rewrite addrC.
Qed.
(* so if the standard normal values are uncorrelated with mean 0 and variance 1 over some engine states with probabilities w,
   then the samples have the requested mean and covariance *)
Theorem C87_normal_moments n (mean : 'cV[R]_n) (cov : 'M[R]_n) m (w : 'I_m -> R) (g : 'I_m -> G) : pd cov ->
  let z k := (random_fill n 1 (normal_distribution 0 1) (g k)).1 in
  \sum_k w k = 1 -> \sum_k w k *: z k = 0 -> \sum_k w k *: (z k *m (z k)^T) = 1%:M ->
  exists x : 'I_m -> 'cV[R]_n, (forall k, exists g', sample_normal mean cov (g k) = Base.Ok (x k, g')) /\
  \sum_k w k *: x k = mean /\ \sum_k w k *: ((x k - mean) *m (x k - mean)^T) = cov.
Proof.
move=> hp z w1 z0 zI; have [L [LL E]] := C87_normal hp; exists (fun k => mean + L *m z k); split; first by move=> k; eexists; exact: E.
split.
  under eq_bigr do rewrite scalerDr scalemxAr.
  by rewrite big_split /= -scaler_suml w1 scale1r -mulmx_sumr z0 mulmx0 addr0.
under eq_bigr => k _ do rewrite addrAC subrr add0r trmx_mul mulmxA -(mulmxA L) scalemxAl scalemxAr.
by rewrite -mulmx_suml -mulmx_sumr zI mulmx1.
Qed.
(* sizes that do not agree fail an assertion *)
Theorem C87_normal_sizes n p q (mean : 'cV[R]_n) (cov : 'M[R]_(p, q)) g : n <> p \/ p <> q -> sample_normal mean cov g = Base.Abort.
Proof. by rewrite /random_multivariate_normal; case=> /eqP /negPf h; rewrite h //; case: eqP. Qed.
End C87.
Print Assumptions C87_covariance.
Print Assumptions C87_covariance_psd.
Print Assumptions C87_covariance_pd.
Print Assumptions C87_covariance_gamma.
Print Assumptions C87_normal.
Print Assumptions C87_normal_moments.
Print Assumptions C87_normal_sizes.

(* two engine states, whose standard normal values are 1 and -1 *)
Definition sign_normal (_ _ : R) (g : bool) : R * bool := ((if g then 1 else - 1) : R, ~~ g).
Example C87_meets_normal : matrixQ_contract (fun k _ => 1%:M) /\ always (fun x => 0 < x) (fun g : bool => (1 : R, g)) /\
  let z (k : 'I_2) := (random_fill 1 1 (sign_normal 0 1) (k == 0)).1 in
  \sum_(k < 2) 2%:R^-1 = 1 :> R /\ \sum_k 2%:R^-1 *: z k = 0 /\ \sum_k 2%:R^-1 *: (z k *m (z k)^T) = 1%:M.
Proof.
split; first by move=> k A; rewrite trmx1 mulmx1.
split; first by move=> g; exact: ltr01.
have h : (2%:R^-1 + 2%:R^-1 = 1 :> R)%R by rewrite -mulr2n -[2%:R^-1 *+ 2]mulr_natl mulfV ?pnatr_eq0.
move=> z; have z0 : z 0 = 1%:M by apply/matrixP => i j; rewrite !ord1 !mxE.
have z1 : z 1 = - 1%:M by apply/matrixP => i j; rewrite !ord1 !mxE.
have e1 : lift ord0 ord0 = 1 :> 'I_2 by apply/val_inj.
rewrite !big_ord_recl !big_ord0 !addr0 !e1 z0 z1; split=> //; split; first by rewrite scalerN subrr.
by rewrite linearN /= trmx1 mulmxN mulNmx opprK mulmx1 -scalerDl h scale1r.
Qed.
