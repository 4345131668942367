(* C105: shifting the mean of a sparse Gaussian process, and comparing two. Exact real arithmetic; the factorizations are any that
   satisfy the contracts of SparseGpSpec.v. A history is a fit followed by any number of updates (SparseGpSpec.v). *)
From Coq Require Import Reals.
From mathcomp Require Import all_ssreflect all_algebra all_fingroup.
From Verif Require Import RealStruct GpModel GpSpec LdltModel LdltSpec PsdProofs SparseGpModel SparseGpSpec SparseGpProofs SparseGpProofs2 SparseGpProofs3 SparseGpProofs4 SparseGpExamples ShiftModel ShiftProofs.
From Verif Require Base.
Set Implicit Arguments.
Unset Strict Implicit.
Unset Printing Implicit Defensive.
Import Order.TTheory GRing.Theory Num.Theory.
Local Open Scope ring_scope.

Section C105.
Variable X : Type.
Variable cov : feature X -> feature X -> R.
Variable mean_function : feature X -> R.
Variable compute_ldlt : forall n, 'M[R]_n -> ldlt_state n.
Variable compute_qr : forall m n, 'M[R]_(m, n) -> qr_result m n.
Variables tolerance measurement_nugget inducing_nugget sparse_R_nugget : R.
Hypothesis hldlt : ldlt_contract compute_ldlt.
Hypothesis hqr : qr_contract compute_qr.
Hypothesis hk : psd_kernel cov.
Hypothesis hnu : 0 < inducing_nugget.
Hypothesis t0 : 0 <= tolerance.
Variables (k : nat) (u : 'I_k -> feature X).
Local Notation history_ := (history cov compute_ldlt compute_qr measurement_nugget inducing_nugget sparse_R_nugget u).
Local Notation predict := (sparse_predict_joint cov mean_function).
(* the pivots of the inducing covariance are above the solver's tolerance *)
Local Notation resolved f := (forall i, tolerance < vectorD (sf_train_covariance f) i 0).
(* what a shift s at the inducing points is at zs *)
Local Notation spread zs s := (cov_mx cov zs u *m invmx (cov_mx cov u u + inducing_nugget%:M) *m s).

(* Every prediction moves by the shift, spread to the predicted features; no covariance changes. *)
Theorem C105_shift n (xs : 'I_n -> feature X) t groups f (s : 'cV[R]_k) : history_ xs t groups f -> resolved f ->
  exists g, shift_mean tolerance f s = Base.Ok g /\ forall p (zs : 'I_p -> feature X),
    j_mean (predict g zs) = j_mean (predict f zs) + spread zs s /\ j_cov (predict g zs) = j_cov (predict f zs).
Proof.
move=> H big; have [_ [_ hs]] := history_stores hldlt hqr hk hnu H.
eexists; split; first exact: shift_ok.
by move=> p zs; rewrite (shifted_predict mean_function hk t0 hs big).
Qed.

(* A shift of zero changes nothing, two shifts are one by their sum. *)
Theorem C105_laws n (xs : 'I_n -> feature X) t groups f (s s' : 'cV[R]_k) : history_ xs t groups f -> resolved f ->
  shift_mean tolerance f (0 : 'cV[R]_k) = Base.Ok f /\
  exists g, shift_mean tolerance f s = Base.Ok g /\ shift_mean tolerance g s' = shift_mean tolerance f (s + s').
Proof.
move=> H big; have [_ [_ hs]] := history_stores hldlt hqr hk hnu H.
split; first by rewrite shift_ok (shifted_0 t0 hs big).
eexists; split; first exact: shift_ok.
by rewrite !shift_ok (shifted_twice t0 hs big).
Qed.

(* A shift may be made before or after an update, if the targets are shifted as their predictions are. *)
Theorem C105_update n m (xs : 'I_n -> feature X) t groups f (s : 'cV[R]_k) (ys : 'I_m -> feature X) (r : marginal R_fieldType m) groups' :
  history_ xs t groups f -> resolved f -> groups_partition groups' -> (forall i, 0 < m_var r i 0 + measurement_nugget) ->
  let update h y := sparse_update_impl cov compute_ldlt compute_qr measurement_nugget inducing_nugget sparse_R_nugget groups' h ys y in
  let moved := Marginal (F := R_fieldType) (m_mean r + spread (as_measurement (X := X) \o ys) s) (m_var r) in
  exists g h, shift_mean tolerance f s = Base.Ok g /\ shift_mean tolerance (update f r) s = Base.Ok h /\
    forall p (zs : 'I_p -> feature X), predict (update g moved) zs = predict h zs.
Proof.
move=> H big hp hv update moved; have [_ [_ hs]] := history_stores hldlt hqr hk hnu H.
do 2 eexists; split; first exact: shift_ok. split; first exact: shift_ok.
by move=> p zs; exact: (update_shifted mean_function sparse_R_nugget hldlt hqr hk hnu t0 ys s zs hs big hp hv).
Qed.

(* At the inducing points what a prediction moves by is the shift up to the inducing nugget. *)
Theorem C105_at_inducing n (xs : 'I_n -> feature X) t groups f (s : 'cV[R]_k) : history_ xs t groups f -> resolved f ->
  exists g, shift_mean tolerance f s = Base.Ok g /\
    j_mean (predict g u) - j_mean (predict f u) = s - inducing_nugget *: (invmx (cov_mx cov u u + inducing_nugget%:M) *m s).
Proof.
move=> H big; have [g [e h]] := C105_shift s H big; exists g; split; first exact: e.
have [-> _] := h _ u; rewrite addrAC subrr add0r; exact: (at_inducing hk hnu).
Qed.

(* finding: it is never the whole shift, unless that is zero: train_covariance includes the inducing nugget, predictions do not *)
Theorem C105_at_inducing_refuted n (xs : 'I_n -> feature X) t groups f (s : 'cV[R]_k) : history_ xs t groups f -> resolved f ->
  exists g, shift_mean tolerance f s = Base.Ok g /\ (j_mean (predict g u) = j_mean (predict f u) + s <-> s = 0).
Proof.
move=> H big; have [g [e h]] := C105_shift s H big; exists g; split; first exact: e.
have [-> _] := h _ u; rewrite -(at_inducing_exact hk hnu u s).
by split=> [/addrI //|->].
Qed.

(* It is the whole shift for a fit made from a prediction at its features, as when inducing points are changed. *)
Theorem C105_from_prediction default_nugget l (z : 'I_l -> feature X) (d : joint R_fieldType l) (s : 'cV[R]_l) :
  pd (cov_mx cov z z) -> (forall i, tolerance < vectorD (compute_ldlt (cov_mx cov z z)) i 0) ->
  let f := sparse_fit_from_prediction cov compute_ldlt compute_qr tolerance default_nugget z d in
  exists g, shift_mean tolerance f s = Base.Ok g /\
    j_mean (predict g z) = j_mean (predict f z) + s /\
    forall p (zs : 'I_p -> feature X),
      j_mean (predict g zs) = j_mean (predict f zs) + cov_mx cov zs z *m invmx (cov_mx cov z z) *m s /\
      j_cov (predict g zs) = j_cov (predict f zs).
Proof.
move=> Kz big f.
have key p zs := @shifted_rebased X cov mean_function compute_ldlt compute_qr tolerance hldlt hk t0 default_nugget l z d s p zs Kz big.
have [g [e _]] := key _ z; exists g; split; first exact: e.
have all p (zs : 'I_p -> feature X) : j_mean (predict g zs) = j_mean (predict f zs) + cov_mx cov zs z *m invmx (cov_mx cov z z) *m s /\ j_cov (predict g zs) = j_cov (predict f zs).
  have [g' [e' h]] := key p zs; have eg : Base.Ok g = Base.Ok g' by rewrite -e -e'.
  by case: eg => ->; exact: h.
split; last exact: all.
by have [-> _] := all _ z; rewrite mulmxV ?mul1mx //; exact: pd_unit.
Qed.

(* A shift of another size aborts; no other does. *)
Theorem C105_size (f : sparse_fit X k) m (s : 'cV[R]_m) :
  (m <> k -> shift_mean tolerance f s = Base.Abort) /\ (m = k -> exists g, shift_mean tolerance f s = Base.Ok g).
Proof.
rewrite /shift_mean; split; first by move/eqP/negbTE => ->.
by move/eqP => ->; eexists.
Qed.
End C105.
Print Assumptions C105_shift.
Print Assumptions C105_laws.
Print Assumptions C105_update.
Print Assumptions C105_at_inducing.
Print Assumptions C105_at_inducing_refuted.
Print Assumptions C105_from_prediction.
Print Assumptions C105_size.

Section Equality.
Variable X : Type.
Variable same : feature X -> feature X -> bool.
Hypothesis hsame : forall x y, same x y <-> x = y.
Let sameP x y : reflect (x = y) (same x y).
Proof. by apply: (iffP idP); case: (hsame x y). Qed.

(* Fits that compare equal predict the same, whatever is predicted, and still compare equal after the same update. *)
Theorem C105_equal cov mean_function k (f g : sparse_fit X k) : sparse_fit_equal same f g ->
  (forall p (zs : 'I_p -> feature X),
     sparse_predict_joint cov mean_function f zs = sparse_predict_joint cov mean_function g zs /\
     sparse_predict_marginal cov mean_function f zs = sparse_predict_marginal cov mean_function g zs /\
     sparse_predict_mean cov mean_function f zs = sparse_predict_mean cov mean_function g zs) /\
  forall compute_ldlt compute_qr measurement_nugget inducing_nugget sparse_R_nugget n groups (xs : 'I_n -> feature X) t,
    let update h := sparse_update_impl cov compute_ldlt compute_qr measurement_nugget inducing_nugget sparse_R_nugget groups h xs t in
    sparse_fit_equal same (update f) (update g).
Proof. by move=> e; split=> [p zs|*]; [exact: (equal_predict sameP) | exact: (equal_update sameP)]. Qed.

(* Comparison is an equivalence: of all members, of the factorization only what it represents. *)
Theorem C105_equivalence k (f g h : sparse_fit X k) :
  sparse_fit_equal same f f /\ sparse_fit_equal same f g = sparse_fit_equal same g f /\
  (sparse_fit_equal same f g -> sparse_fit_equal same g h -> sparse_fit_equal same f h) /\
  (sparse_fit_equal same f g <->
   [/\ sf_features f =1 sf_features g,
       (forall i j : 'I_k, (j <= i)%N -> m_matrix (sf_train_covariance f) i j = m_matrix (sf_train_covariance g) i j) /\
       m_transpositions (sf_train_covariance f) =1 m_transpositions (sf_train_covariance g),
       sf_R f = sf_R g /\ sf_P f = sf_P g, sf_information f = sf_information g & sf_rank f = sf_rank g]).
Proof.
have iff_ (a b : sparse_fit X k) : sparse_fit_equal same a b <->
   [/\ sf_features a =1 sf_features b,
       (forall i j : 'I_k, (j <= i)%N -> m_matrix (sf_train_covariance a) i j = m_matrix (sf_train_covariance b) i j) /\
       m_transpositions (sf_train_covariance a) =1 m_transpositions (sf_train_covariance b),
       sf_R a = sf_R b /\ sf_P a = sf_P b, sf_information a = sf_information b & sf_rank a = sf_rank b].
  split.
    move/(fit_equal sameP) => [h1 [h2 [h3 [h4 [h5 h6]]]]].
    by split=> //; [rewrite h1 | split; [exact: equal_lower | rewrite (equal_transpositions h2)]].
  case=> h1 [h2 h2'] [h3 h4] h5 h6; rewrite /sparse_fit_equal h3 h4 h5 h6 !eqxx !andbT; apply/andP; split.
    by apply/forallP => i; apply/sameP.
  apply/andP; split; last by apply/forallP => i; rewrite h2'.
  by apply/forallP => i; apply/forallP => j; apply/implyP => hij; rewrite h2.
split; first by apply/iff_.
split; first exact: (fit_equal_sym sameP).
split; last exact: iff_.
move=> /iff_ [a1 [a2 a2'] [a3 a4] a5 a6] /iff_ [b1 [b2 b2'] [b3 b4] b5 b6]; apply/iff_; split.
- by move=> i; rewrite a1.
- by split=> [i j hij|i]; [rewrite a2 // b2 | rewrite a2'].
- by split; [rewrite a3 | rewrite a4].
- by rewrite a5.
- by rewrite a6.
Qed.
End Equality.
Print Assumptions C105_equal.
Print Assumptions C105_equivalence.

(* three observations in two groups, then shifted by a number that is not zero; and a comparison of features *)
Example C105_meets :
  ldlt_contract plain_ldlt /\ qr_contract plain_qr /\ psd_kernel linear /\
  let f := sparse_fit_impl linear plain_ldlt plain_qr 1 1 ex_groups ex_u ex_xs ex_t in
  history linear plain_ldlt plain_qr 1 1 1 ex_u ex_xs ex_t ex_groups f /\
  (forall i, 0 < vectorD (sf_train_covariance f) i 0) /\ (1%:M : 'cV[R]_1) <> 0 /\
  pd (cov_mx linear one_x one_x) /\ (forall i, 0 < vectorD (plain_ldlt (cov_mx linear one_x one_x)) i 0) /\
  exists same : feature R -> feature R -> bool, (forall x y, same x y <-> x = y) /\ sparse_fit_equal same f f.
Proof.
have one0 : 0 < 1 :> R by exact: ltr01.
split; first exact: plain_ldlt_contract. split; first exact: plain_qr_contract. split; first exact: linear_psd.
move=> f; have H : history linear plain_ldlt plain_qr 1 1 1 ex_u ex_xs ex_t ex_groups f
  by apply: history_fit; [exact: ex_partition | exact: ex_var].
split; first exact: H.
have [_ [_ hs]] := history_stores plain_ldlt_contract plain_qr_contract linear_psd one0 H.
split; first by case: hs => _ [[_ h] _].
split; first by move/matrixP => /(_ 0 0); rewrite !mxE eqxx => /eqP; rewrite oner_eq0.
split; first exact: one_pd.
split; first by have [_] := ldlt_pd plain_ldlt_contract one_pd.
pose same (x y : feature R) := match x, y with Bare a, Bare b => a == b | Measured a, Measured b => a == b | _, _ => false end.
have sameP x y : same x y <-> x = y.
  by case: x y => a [] b /=; split=> // [/eqP ->|[->]].
exists same; split; first exact: sameP.
by have [] := C105_equivalence sameP f f f.
Qed.
