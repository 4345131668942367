(* Model of models/least_squares.hpp in exact arithmetic: numbers are those of a field. A vector of Eigen is the
   sequence of its entries. Eigen assertions are aborts. The column pivoted Householder QR solver of Eigen is
   given by its effect, [solver]. *)
From Verif Require Base.
From mathcomp Require Import all_ssreflect all_algebra.
Set Implicit Arguments.
Unset Strict Implicit.
Unset Printing Implicit Defensive.
Import GRing.Theory.
Local Open Scope ring_scope.

Section Variances.
(* variances are doubles: [differ] is the comparison != of doubles, true of NaN and itself *)
Variable V : Type.
Variable differ : V -> V -> bool.
(* models/least_squares.hpp:25-37 *)
Definition all_same_value (x : seq V) : bool :=
  if x is first :: _ then all (fun v => ~~ differ v first) x else true.
End Variances.

Section Model.
Variable F : fieldType.
Variable V : Type.
Variable differ : V -> V -> bool.
(* A.colPivHouseholderQr().solve(b), models/least_squares.hpp:84-87 *)
Variable solver : forall m n, 'M[F]_(m, n) -> 'cV[F]_m -> 'cV[F]_n.

(* Eigen's a.dot(b), which asserts that the sizes are equal *)
Definition vdot (a b : seq F) : Base.outcome F :=
  Base.assert_then (size a == size b) (Base.Ok (\sum_(p <- zip a b) p.1 * p.2)).

(* the design matrix, models/least_squares.hpp:59-64 *)
Definition design m n (features : seq (seq F)) : 'M[F]_(m, n) := \matrix_(i, j) nth 0 (nth [::] features i) j.

(* LeastSquares::_fit_impl, models/least_squares.hpp:52-68. features[0] of no features is undefined; a row of
   another size and a target vector of another size are assertions of Eigen. *)
Definition fit (features : seq (seq F)) (mean : seq F) (variances : seq V) : Base.outcome (seq F) :=
  Base.assert_then (all_same_value differ variances)
  (if features is first :: _ then
     let m := size features in
     let n := size first in
     Base.assert_then (all (fun f => size f == n) features)
     (Base.assert_then (size mean == m)
     (let coefs := solver (design m n features) (\col_i nth 0 mean i) in
      Base.Ok [seq coefs i 0 | i <- enum 'I_n]))
   else Base.UB).

(* LeastSquares::_predict_impl, models/least_squares.hpp:70-79 *)
Definition predict (features : seq (seq F)) (coefs : seq F) : Base.outcome (seq F) :=
  Base.mapM (fun f => vdot f coefs) features.

(* LinearRegression::convert_feature(s), models/least_squares.hpp:106-119 *)
Definition convert_feature (f : F) : seq F := [:: 1; f].
Definition convert_features (features : seq F) : seq (seq F) := map convert_feature features.
(* LinearRegression::_fit_impl and _predict_impl, models/least_squares.hpp:121-131 *)
Definition regression_fit (features : seq F) (mean : seq F) (variances : seq V) : Base.outcome (seq F) :=
  fit (convert_features features) mean variances.
Definition regression_predict (features : seq F) (coefs : seq F) : Base.outcome (seq F) :=
  predict (convert_features features) coefs.
End Model.
