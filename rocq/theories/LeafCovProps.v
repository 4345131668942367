(* C79: noise, nugget, constant and polynomial covariance functions. *)
From mathcomp Require Import all_ssreflect all_algebra.
From Verif Require Import GpModel GpSpec PsdProofs LeafCovModel LeafCovProofs.
Set Implicit Arguments.
Unset Strict Implicit.
Unset Printing Implicit Defensive.
Import Order.TTheory GRing.Theory Num.Theory.
Local Open Scope ring_scope.

(* The covariance matrix of any features is positive semi-definite. The comparison of features has to be symmetric and
   transitive; a feature that is not equal to itself (NaN) is allowed. *)
Theorem C79_psd (R : realFieldType) n :
  (forall X (same : X -> X -> bool) (xs : 'I_n -> X) (sigma : R),
     (forall x y, same x y = same y x) -> (forall x y z, same x y -> same y z -> same x z) ->
     psd (\matrix_(i, j) independent_noise same sigma (xs i) (xs j)) /\
     psd (\matrix_(i, j) nugget same sigma (xs i) (xs j))) /\
  (forall X (xs : 'I_n -> X) (sigma : R), psd (\matrix_(i, j) constant sigma (xs i) (xs j))) /\
  (forall order (sigma : nat -> R) (xs : 'I_n -> R), psd (\matrix_(i, j) polynomial order sigma (xs i) (xs j))).
Proof.
split; first by move=> X same xs sigma s t; split; exact: noise_psd.
split; [by move=> X xs sigma; exact: constant_psd|by move=> order sigma xs; exact: polynomial_psd].
Qed.
Print Assumptions C79_psd.

(* The state space of a constant is a single term, which determines the constant everywhere: the covariance of any features
   given it is zero. *)
Theorem C79_state_space (R : realFieldType) X (features : seq X) (sigma : R) n (xs : 'I_n -> X) : sigma != 0 ->
  let terms := tnth (in_tuple (constant_state_space features)) in
  let A := \matrix_(i, j) constant sigma (terms i) (terms j) in
  let B := \matrix_(i, j) constant sigma (xs i) (terms j) in
  size (constant_state_space features) = 1%N /\ A \in unitmx /\
  B *m invmx A *m B^T = \matrix_(i, j) constant sigma (xs i) (xs j).
Proof.
move=> s0 terms A B; split=> //.
have EA : A = (sigma * sigma)%:M by apply/matrixP=> i j; rewrite !mxE !ord1.
have u : A \in unitmx by rewrite EA unitmxE det_scalar1 unitfE mulf_neq0.
split=> //; apply/matrixP=> i j; rewrite EA invmx_scalar mul_mx_scalar -scalemxAl !mxE big_ord1 !mxE /constant.
by rewrite mulrA mulVf ?mul1r // mulf_neq0.
Qed.
Print Assumptions C79_state_space.

(* Between distinct features the noise is a multiple of the identity, so that a nugget makes the sum with any positive
   semi-definite matrix positive definite, hence invertible. *)
Theorem C79_nugget (R : realFieldType) X (same : X -> X -> bool) n (xs : 'I_n -> X) (sigma : R) (A : 'M[R]_n) :
  (forall i j, same (xs i) (xs j) = (i == j)) -> sigma != 0 -> psd A ->
  \matrix_(i, j) nugget same sigma (xs i) (xs j) = (sigma ^+ 2)%:M /\
  \matrix_(i, j) independent_noise same sigma (xs i) (xs j) = (sigma ^+ 2)%:M /\
  pd (\matrix_(i, j) nugget same sigma (xs i) (xs j) + A) /\
  \matrix_(i, j) nugget same sigma (xs i) (xs j) + A \in unitmx.
Proof.
move=> h s0 hA; have e := noise_distinct sigma h.
have p : pd (\matrix_(i, j) nugget same sigma (xs i) (xs j) + A).
  by apply: pdD => //; rewrite e; apply: pd_scalar; rewrite exprn_even_gt0.
by do !split=> //; exact: pd_unit.
Qed.
Print Assumptions C79_nugget.
(* Not so with repeated features: the same feature twice gives a singular matrix, in spite of the nugget. *)
Theorem C79_repeated_refuted (R : realFieldType) (sigma : R) (A : 'M[R]_2) :
  A = const_mx 1 -> let M := \matrix_(i, j) nugget (@eq_op nat_eqType) sigma ((fun _ : 'I_2 => 7%N) i) ((fun _ : 'I_2 => 7%N) j) + A in
  psd A /\ ~ (M \in unitmx).
Proof.
move=> -> M; split.
  have -> : (const_mx 1 : 'M[R]_2) = \matrix_(i, j) constant 1 ((fun _ => tt) i) ((fun _ => tt) j).
    by apply/matrixP => i j; rewrite !mxE /constant mulr1.
  exact: constant_psd.
rewrite unitmxE; have -> : M = const_mx (sigma * sigma + 1).
  by apply/matrixP => i j; rewrite !mxE /nugget eqxx.
by rewrite (@determinant_alternate _ _ _ (0 : 'I_2) 1) ?unitr0 // => j; rewrite !mxE.
Qed.
Print Assumptions C79_repeated_refuted.
(* and a feature that is not equal to itself gets no nugget *)
Theorem C79_nan_refuted (R : realFieldType) X (same : X -> X -> bool) (x : X) (sigma : R) :
  same x x = false -> nugget same sigma x x = 0 /\ independent_noise same sigma x x = 0.
Proof. by rewrite /nugget /independent_noise => ->. Qed.
Print Assumptions C79_nan_refuted.

(* Polynomial<order> is the covariance of a polynomial with independent coefficients: the sum of
   sigma_i^2 x^i y^i, with a matrix of rank at most order + 1. *)
Theorem C79_polynomial (R : realFieldType) order (sigma : nat -> R) n (xs : 'I_n -> R) (x y : R) :
  polynomial order sigma x y = \sum_(i < order.+1) sigma i ^+ 2 * x ^+ i * y ^+ i /\
  polynomial order sigma x y = polynomial order sigma y x /\
  (\rank (\matrix_(i, j) polynomial order sigma (xs i) (xs j)) <= order.+1)%N.
Proof.
split; first by rewrite polynomial_sum; apply: eq_bigr => i _; rewrite expr2.
by split; [exact: polynomial_sym|exact: polynomial_rank].
Qed.
Print Assumptions C79_polynomial.

(* A Gaussian process with this covariance function and a linear mean predicts a polynomial of that degree (or the
   degree of the mean), whatever the data it is fit to. *)
Definition unwrap X (f : feature X) : X := match f with Bare x => x | Measured x => x end.
Theorem C79_regression (F : fieldType) order (sigma : nat -> F) slope offset n (xs : 'I_n -> feature F) (targets : marginal F n) :
  let cov := fun a b => polynomial order sigma (unwrap a) (unwrap b) in
  let mu := fun a => linear_mean slope offset (unwrap a) in
  exists p : {poly F}, (size p <= maxn order.+1 2)%N /\
    forall k (zs : 'I_k -> feature F) i, predict_mean cov mu (fit cov mu xs targets) zs i 0 = p.[unwrap (zs i)].
Proof.
move=> cov mu; set w := information (fit cov mu xs targets).
exists (combination order sigma (fun i => unwrap (xs i)) w + (slope *: 'X + offset%:P)); split.
  apply: leq_trans (size_add _ _) _; rewrite geq_max !leq_max /combination size_poly /=.
  apply/orP; right; apply: leq_trans (size_add _ _) _; rewrite geq_max.
  by rewrite (leq_trans (size_scale_leq _ _)) ?size_polyX //= (leq_trans (size_polyC_leq1 _)).
move=> k zs i; rewrite hornerD -combination_horner hornerD hornerZ hornerX hornerC /predict_mean /gp_mean_prediction mxE.
congr (_ + _); last by rewrite mxE.
by rewrite mxE; apply: eq_bigr => j _; rewrite !mxE.
Qed.
Print Assumptions C79_regression.

(* cases *)
Example C79_meets : (forall x y : nat_eqType, (x == y) = (y == x)) /\ (forall x y z : nat_eqType, x == y -> y == z -> x == z) /\
  (forall i j : 'I_2, (val i == val j) = (i == j)) /\ (1 : rat) != 0 /\ psd (0 : 'M[rat]_2).
Proof.
split; first by move=> x y; rewrite eq_sym.
split; first by move=> x y z /eqP -> /eqP ->.
by split; [|split=> //; exact: psd0].
Qed.
Example C79_line : polynomial 1 (fun i => (i.+1)%:R) (2 : rat) 3 = 25%:R.
Proof. by rewrite polynomial_sum !big_ord_recl big_ord0. Qed.
