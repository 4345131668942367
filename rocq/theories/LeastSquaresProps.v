(* C75: least squares and linear regression. *)
From Coq Require Import Reals.
From Verif Require Import ExtRealModel TuningModel.
From Verif Require Base.
From mathcomp Require Import all_ssreflect all_algebra.
From Verif Require Import LeastSquaresModel LeastSquaresSpec LeastSquaresProofs.
Set Implicit Arguments.
Unset Strict Implicit.
Unset Printing Implicit Defensive.
Import Order.TTheory GRing.Theory Num.Theory.
Local Open Scope ring_scope.

(* the contract of the solver can be met, for every matrix whatever its shape and rank *)
Theorem C75_solver_exists (F : realFieldType) :
  exists solver : forall m n, 'M[F]_(m, n) -> 'cV[F]_m -> 'cV[F]_n, least_squares_contract solver.
Proof. by exists (@pseudo F); exact: pseudo_contract. Qed.
Print Assumptions C75_solver_exists.

Section Theorems.
Variable F : realFieldType.
Variable V : Type.
Variable differ : V -> V -> bool.
Variable solver : forall m n, 'M[F]_(m, n) -> 'cV[F]_m -> 'cV[F]_n.
Hypothesis contract : least_squares_contract solver.

(* The fit of any number of observations of any common size minimises the sum of squares over all coefficients;
   coefficients which do as well give the same predictions of the data. *)
Theorem C75_fit n (features : seq (seq F)) y vs :
  all_same_value differ vs -> (0 < size features)%N -> all (fun f => size f == n) features ->
  size y = size features ->
  exists coefs, fit differ solver features y vs = Base.Ok coefs /\ size coefs = n /\
    forall z, size z = n ->
      squares features y coefs <= squares features y z /\
      (squares features y z <= squares features y coefs ->
       predict features z = predict features coefs).
Proof.
move=> same some sizes sy; eexists; split; first exact: (fit_ok solver same some sizes sy).
split=> [|z ez]; first exact: size_entries.
split=> [|h]; first exact: (minimises contract sizes sy ez).
rewrite !predict_ok ?size_entries ?ez //; congr (Base.Ok _).
exact: (minimises_eq contract sizes sy ez h).
Qed.
Print Assumptions C75_fit.

(* The predictions of the data do not depend on which solution the solver picks. *)
Theorem C75_unique solver' (contract' : least_squares_contract solver') n (features : seq (seq F)) y vs c c' :
  all (fun f => size f == n) features ->
  fit differ solver features y vs = Base.Ok c -> fit differ solver' features y vs = Base.Ok c' ->
  predict features c = predict features c' /\ (identifiable n features -> c = c').
Proof.
move=> sizes; rewrite /fit; case: (boolP (all_same_value _ _)) => //= same.
case ef: features => [//|f0 l] /=; rewrite -ef eqxx /=.
have e0 : size f0 = n by apply/eqP; move/allP: sizes; apply; rewrite ef mem_head.
rewrite e0; case: (boolP (all _ l)) => //= al; case: (boolP (_ == _)) => //= /eqP sy [<-] [<-].
have some : (0 < size features)%N by rewrite ef.
have sy' : size y = size features by rewrite sy ef.
have em : (size l).+1 = size features by rewrite ef.
rewrite em -/(entries _) -/(entries _) -/(vec _ _).
have h : [seq inner f (entries (solver' _ _ (design (size features) n features) (vec (size features) y))) | f <- features] =
  [seq inner f (entries (solver (design (size features) n features) (vec (size features) y))) | f <- features].
  apply: (minimises_eq contract sizes sy'); first exact: size_entries.
  by apply: (minimises contract' sizes sy'); exact: size_entries.
split; first by rewrite !predict_ok ?size_entries //; congr (Base.Ok _).
by move=> idf; apply: (identify idf); rewrite ?size_entries.
Qed.
Print Assumptions C75_unique.

(* Data on a linear function are reproduced, and the function is found when the data determine it. *)
Theorem C75_recovers n (features : seq (seq F)) z vs :
  all_same_value differ vs -> (0 < size features)%N -> all (fun f => size f == n) features -> size z = n ->
  exists coefs, fit differ solver features [seq inner f z | f <- features] vs = Base.Ok coefs /\
    predict features coefs = Base.Ok [seq inner f z | f <- features] /\
    (identifiable n features -> coefs = z).
Proof.
move=> same some sizes ez.
have sy : size [seq inner f z | f <- features] = size features by rewrite size_map.
eexists; split; first exact: (fit_ok solver same some sizes sy).
have e : [seq inner f z | f <- features] = [seq inner f (entries (solver (design (size features) n features)
    (vec (size features) [seq inner f z | f <- features]))) | f <- features].
  apply: (minimises_eq contract sizes sy ez).
  by rewrite (squares_eq0 sy erefl) squares_ge0.
split; first by rewrite predict_ok ?size_entries // -e.
by move=> idf; apply: (identify idf); rewrite ?size_entries // -e.
Qed.
Print Assumptions C75_recovers.

(* The prediction of a feature is its inner product with the coefficients, and the sizes are checked. *)
Theorem C75_predict (features : seq (seq F)) coefs :
  predict features coefs =
  if all (fun f => size f == size coefs) features then Base.Ok [seq inner f coefs | f <- features] else Base.Abort.
Proof. by case: (boolP (all _ _)) => h; [exact: predict_ok|exact: predict_abort]. Qed.
Print Assumptions C75_predict.

(* Linear regression of any number of points: the fitted line has the least sum of squares of all lines, goes
   through the average point, leaves residuals that sum to zero and has the slope of the covariance of x and y
   over the variance of x. *)
Theorem C75_regression (xs y : seq F) vs :
  all_same_value differ vs -> (0 < size xs)%N -> size y = size xs ->
  exists a b, regression_fit differ solver xs y vs = Base.Ok [:: a; b] /\
    (forall a' b', \sum_(p <- zip xs y) (p.2 - (a + b * p.1)) ^+ 2 <=
                   \sum_(p <- zip xs y) (p.2 - (a' + b' * p.1)) ^+ 2) /\
    \sum_(p <- zip xs y) (p.2 - (a + b * p.1)) = 0 /\
    average y = a + b * average xs /\
    b * (\sum_(p <- zip xs y) (p.1 - average xs) ^+ 2) =
      \sum_(p <- zip xs y) (p.1 - average xs) * (p.2 - average y) /\
    (forall fs, regression_predict fs [:: a; b] = Base.Ok [seq a + b * x | x <- fs]).
Proof.
move=> same some sy; have [a [b [e [h0 h1]]]] := regression_normal contract same some sy.
exists a, b; split=> //; split; first exact: (regression_minimises contract same some sy e).
have [k1 k2] := line_formula some sy h0 h1.
by do !split=> //; move=> fs; exact: regression_predict_ok.
Qed.
Print Assumptions C75_regression.

(* Points of a line with two different abscissas give back that line. *)
Theorem C75_regression_recovers (xs : seq F) a b x x' vs :
  all_same_value differ vs -> x \in xs -> x' \in xs -> x != x' ->
  regression_fit differ solver xs [seq a + b * x | x <- xs] vs = Base.Ok [:: a; b].
Proof.
move=> same h h' ne.
have some : (0 < size (convert_features xs))%N by rewrite size_converted; case: xs h {h'}.
have [c [e [_ k]]] := C75_recovers (z := [:: a; b]) same some (converted xs) erefl.
rewrite /regression_fit; have -> : [seq a + b * x | x <- xs] = [seq inner f [:: a; b] | f <- convert_features xs].
  by rewrite -map_comp; apply: eq_map => u /=; rewrite mul1r addr0 mulrC.
by rewrite e (k (regression_identifiable h h' ne)).
Qed.
Print Assumptions C75_regression_recovers.
End Theorems.

(* The variances of the targets, compared as doubles: the fit is abandoned when two differ or when one is NaN,
   and their common value has no effect. *)
Definition unequal (a b : xr) : bool := ~~ TuningModel.xeqb a b.
Theorem C75_variances (F : realFieldType) solver (features : seq (seq F)) y (vs : list xr) :
  (List.In XNaN vs \/ (exists v w, List.In v vs /\ List.In w vs /\ v <> w)) ->
  fit unequal solver features y vs = Base.Abort.
Proof.
have eqb_eq u v : TuningModel.xeqb u v = true -> u = v /\ u <> XNaN.
  case: u => [|u||]; case: v => [|v||] //=; try by split.
  by rewrite /Reqb; case: (Req_EM_T u v) => // ->; split.
move=> h; apply: fit_variances; apply/negP; case: vs h => [|v0 l] /=.
  by case=> [[]|[? [? [[]]]]].
move=> h; rewrite -[_ && _]/(all (fun v => ~~ unequal v v0) (v0 :: l)) => k.
have {}k v : List.In v (v0 :: l) -> v = v0 /\ v <> XNaN.
  elim: (v0 :: l) k => //= u s IH /andP [hu hs] [<-|]; last exact: IH.
  by move: hu; rewrite /unequal negbK; exact: eqb_eq.
case: h => [/k []//|[v [w [/k [-> _] [/k [-> _]]]]]] //.
Qed.
Print Assumptions C75_variances.
Theorem C75_common_variance (F : realFieldType) V (differ : V -> V -> bool) V' (differ' : V' -> V' -> bool)
    solver (features : seq (seq F)) y vs vs' :
  all_same_value differ vs -> all_same_value differ' vs' ->
  fit differ solver features y vs = fit differ' solver features y vs'.
Proof. by rewrite /fit => -> ->. Qed.
Print Assumptions C75_common_variance.

(* Without data the code reads the first feature of an empty vector. *)
Theorem C75_no_data_refuted : exists (F : realFieldType) (solver : forall m n, 'M[F]_(m, n) -> 'cV[F]_m -> 'cV[F]_n),
  least_squares_contract solver /\ fit unequal solver [::] [::] [::] = Base.UB.
Proof. by exists rat_realFieldType, (@pseudo _); split; first exact: pseudo_contract. Qed.
Print Assumptions C75_no_data_refuted.

(* a case: three points on no common line, with equal variances, and a feature matrix of deficient rank *)
Definition same_rat (a b : rat) : bool := a != b.
Example C75_meets :
  all_same_value same_rat [:: 1; 1; 1] /\
  regression_fit same_rat (@pseudo rat_realFieldType) [:: 0; 1; 2] [:: 1 + 0 * 0; 1 + 0 * 1; 1 + 0 * 2] [:: 1; 1; 1]
    = Base.Ok [:: 1; 0].
Proof.
split=> //.
exact: (@C75_regression_recovers rat_realFieldType rat same_rat _ (@pseudo_contract _) [:: 0; 1; 2] 1 0 0 1).
Qed.
Example C75_deficient : exists c,
  fit same_rat (@pseudo rat_realFieldType) [:: [:: 1; 1]; [:: 2; 2]] [:: 1; 5] [:: 0; 0] = Base.Ok c /\
  ~ identifiable 2 [:: [:: 1; 1]; [:: 2; 2] : seq rat].
Proof.
have [c [e _]] := @C75_fit rat_realFieldType rat same_rat _ (@pseudo_contract _) 2%N [:: [:: 1; 1]; [:: 2; 2]]
  [:: 1; 5] [:: 0; 0] erefl erefl erefl erefl.
exists c; split=> // /(_ [:: 1; -1] erefl) h; suff : [:: 1; -1] = nseq 2 (0 : rat) by [].
by apply: h => f; rewrite !inE => /orP [] /eqP ->.
Qed.
