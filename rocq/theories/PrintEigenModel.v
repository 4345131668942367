(* Model of linalg/print_eigen_directions.hpp over the reals. What is written to the stream is a list of items; their formatting is not
   modelled. The eigen solver and std::sort are arguments; their contracts are in PrintEigenSpec.v. *)
From Coq Require Import Reals List.
From Verif Require Import Base ExtRealModel.
Import ListNotations.

Section Print.
Variable feature : Type.
(* Eigen::SelfAdjointEigenSolver: eigenvalues() and the columns of eigenvectors() *)
Variable eigen_solver : list (list R) -> list R * list (list R).
(* std::sort(begin, end, comp) *)
Variable sort : forall A : Type, (A -> A -> bool) -> list A -> list A.

Inductive item := Min (v : R) | Max (v : R) | EigenValue (v : R) | Coef (c : R) (f : feature).

Definition Rltb (x y : R) : bool := if Rlt_dec x y then true else false.

(* Eigen's minCoeff() and maxCoeff(), which assert that there are coefficients *)
Definition minCoeff (v : list R) : outcome R := match v with [] => Abort | x :: r => Ok (fold_left Rmin r x) end.
Definition maxCoeff (v : list R) : outcome R := match v with [] => Abort | x :: r => Ok (fold_left Rmax r x) end.

(* linalg/print_eigen_directions.hpp:69-75; vector[k] and features[k] with an index out of bounds are undefined behaviour *)
Fixpoint print_coefs (vector : list R) (features : list feature) (print_if_above : R) (sorted_idx : list nat) : outcome (list item) :=
  match sorted_idx with
  | [] => Ok []
  | k :: rest =>
    match nth_error vector k with
    | None => UB
    | Some coef =>
      if Rltb print_if_above (Rabs coef) then
        match nth_error features k with
        | None => UB
        | Some f => out <- print_coefs vector features print_if_above rest ;; Ok (Coef coef f :: out)
        end
      else print_coefs vector features print_if_above rest
    end
  end.
(* linalg/print_eigen_directions.hpp:54-75, an iteration of the loop *)
Definition print_direction (features : list feature) (print_if_above : R) (vv : R * list R) : outcome (list item) :=
  let vector := snd vv in
  let sorted_idx := sort nat (fun ii jj => Rltb (Rabs (nth jj vector 0%R)) (Rabs (nth ii vector 0%R))) (seq 0 (length vector)) in
  out <- print_coefs vector features print_if_above sorted_idx ;;
  Ok (EigenValue (fst vv) :: out).
(* linalg/print_eigen_directions.hpp:53-76: values_and_vectors[i] for i = start, start + 1, ... *)
Fixpoint print_directions (values_and_vectors : list (R * list R)) (features : list feature) (print_if_above : R) (count : nat) {struct count} :
  outcome (list item) :=
  match count with
  | O => Ok []
  | S count' =>
    match values_and_vectors with
    | [] => UB
    | vv :: rest =>
      o <- print_direction features print_if_above vv ;;
      out <- print_directions rest features print_if_above count' ;;
      Ok (o ++ out)
    end
  end.
(* linalg/print_eigen_directions.hpp:22-77 *)
Definition print_eigen_directions (matrix : list (list R)) (features : list feature) (count : nat) (comp : R -> R -> bool)
  (print_if_above : R) : outcome (list item) :=
  let ev := eigen_solver matrix in
  let values := fst ev in
  let values_and_vectors := sort (R * list R) (fun a b => comp (fst a) (fst b)) (combine values (snd ev)) in
  mn <- minCoeff values ;;
  mx <- maxCoeff values ;;
  out <- print_directions values_and_vectors features print_if_above count ;;
  Ok (Min mn :: Max mx :: out).
(* linalg/print_eigen_directions.hpp:81-93 *)
Definition print_small_eigen_directions (matrix : list (list R)) (features : list feature) (count : nat) (print_if_above : R) :=
  print_eigen_directions matrix features count (fun a b => Rltb a b) print_if_above.
(* linalg/print_eigen_directions.hpp:95-107 *)
Definition print_large_eigen_directions (matrix : list (list R)) (features : list feature) (count : nat) (print_if_above : R) :=
  print_eigen_directions matrix features count (fun a b => Rltb b a) print_if_above.
End Print.
