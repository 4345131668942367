(* Model of covariance_functions/distance_metrics.hpp. An Eigen vector of doubles is the list of its
   entries, finite doubles are exact reals; the binary operations of Eigen assert that the sizes agree
   (Abort). The quotient of the angular distance may be NaN, see ExtRealModel.v. *)
From Coq Require Import Reals.
From Verif Require Import Base ExtRealModel.
Local Open Scope R_scope.

(* x / y: 0 is the positive zero, the sign of zero is not modelled *)
Definition xdiv (a b : xr) : xr :=
  match a, b with
  | XNaN, _ | _, XNaN => XNaN
  | XFin x, XFin y =>
      if Reqb y 0 then (if Reqb x 0 then XNaN else if Rltb 0 x then XPos else XNeg) else XFin (x / y)
  | XFin _, _ => XFin 0
  | XPos, XFin y => if Rltb y 0 then XNeg else XPos
  | XNeg, XFin y => if Rltb y 0 then XPos else XNeg
  | _, _ => XNaN
  end.
(* acos, NaN outside [-1, 1] *)
Definition xacos (a : xr) : xr :=
  match a with
  | XFin x => if Rleb (-1) x && Rleb x 1 then XFin (acos x) else XNaN
  | _ => XNaN
  end.

(* x.dot(y) and x.norm() of Eigen *)
Fixpoint sum_products (x y : list R) : R :=
  match x, y with
  | a :: x', b :: y' => a * b + sum_products x' y'
  | _, _ => 0
  end.
Definition dot (x y : list R) : outcome R :=
  assert_then (length x =? length y)%nat (Ok (sum_products x y)).
Definition norm (x : list R) : R := sqrt (sum_products x x).
(* x - y *)
Fixpoint differences (x y : list R) : list R :=
  match x, y with
  | a :: x', b :: y' => (a - b) :: differences x' y'
  | _, _ => []
  end.
Definition minus (x y : list R) : outcome (list R) :=
  assert_then (length x =? length y)%nat (Ok (differences x y)).

(* EuclideanDistance::operator()(double, double), distance_metrics.hpp:36-38 *)
Definition euclidean_scalar (x y : R) : outcome xr := Ok (XFin (Rabs (x - y))).
(* EuclideanDistance::operator() of two vectors, distance_metrics.hpp:40-44 *)
Definition euclidean_distance (x y : list R) : outcome xr :=
  d <- minus x y ;; Ok (XFin (norm d)).
(* radial_distance and RadialDistance::operator(), distance_metrics.hpp:47-61 *)
Definition radial_distance (x y : list R) : outcome xr :=
  Ok (XFin (Rabs (norm x - norm y))).

(* EPSILON, distance_metrics.hpp:18 *)
Definition EPSILON : R := / 10 ^ 16.
(* angular_distance and AngularDistance::operator(), distance_metrics.hpp:64-89 *)
Definition angular_distance (x y : list R) : outcome xr :=
  d <- dot x y ;;
  let dot_product := xdiv (XFin d) (XFin (norm x * norm y)) in
  Ok (if xltb (XFin (1 - EPSILON)) dot_product then XFin 0
      else if xltb dot_product (XFin (-1 + EPSILON)) then XFin PI
      else xacos dot_product).

(* distance_matrix, distance_metrics.hpp:92-109, of any metric: the entries are written in the order of
   the loops, D(i, j) and then D(j, i). The matrix is a list of entries (position, value), the last one
   written is the one read; an entry never written is uninitialised (None). *)
Section Matrix.
Context {X V : Type}.
Variable metric : X -> X -> outcome V.
Definition entries := list ((nat * nat) * V).
Definition read (D : entries) (i j : nat) : option V :=
  option_map snd (find (fun e => (fst (fst e) =? i) && (snd (fst e) =? j))%nat D).
Definition distance_step (xs : list X) (i : nat) (D : entries) (j : nat) : outcome entries :=
  x <- of_option UB (nth_error xs i) ;;
  y <- of_option UB (nth_error xs j) ;;
  d <- metric x y ;;
  Ok (((j, i), d) :: ((i, j), d) :: D).
Definition distance_matrix (xs : list X) : outcome entries :=
  foldM (fun D i => foldM (distance_step xs i) (seq 0 (S i)) D) (seq 0 (length xs)) [].
End Matrix.
