(* Model of include/albatross/src/polynomial/chebyshev.hpp. Arrays are lists of exact reals and the index type
   is Z. Array expressions are coefficient-wise; the sizes agree everywhere in this file. *)
From Coq Require Import Reals.
From Verif Require Import Base.
Local Open Scope R_scope.

(* chebyshev.hpp:23-25 *)
Definition chebyshev_t0 (x : list R) : list R := map (fun _ => 1) x.
(* chebyshev.hpp:27 *)
Definition chebyshev_t1 (x : list R) : list R := x.
(* the coefficient-wise a * x * y - z of chebyshev.hpp:30, 41, 68, 95, 123, 150 *)
Fixpoint product_minus (a : R) (x y z : list R) : list R :=
  match x, y, z with
  | xi :: x', yi :: y', zi :: z' => a * xi * yi - zi :: product_minus a x' y' z'
  | _, _, _ => []
  end.
(* chebyshev.hpp:29-31 *)
Definition chebyshev_t2 (x : list R) : list R := product_minus 2 x x (chebyshev_t0 x).
(* chebyshev.hpp:34-36 *)
Definition chebyshev_u0 (x : list R) : list R := map (fun _ => 1) x.
(* chebyshev.hpp:38 *)
Definition chebyshev_u1 (x : list R) : list R := map (fun v => 2 * v) x.
(* chebyshev.hpp:40-42 *)
Definition chebyshev_u2 (x : list R) : list R := product_minus 4 x x (chebyshev_u0 x).

(* the loops chebyshev.hpp:67-71 and 122-126; k iterations from the state (n, n - 1, n - 2) *)
Fixpoint recurrence (k : nat) (x p p_minus_1 p_minus_2 : list R) : list R :=
  match k with
  | O => p
  | S k' => let q := product_minus 2 x p_minus_1 p_minus_2 in recurrence k' x q q p_minus_1
  end.
(* number of values of i in [from, to] *)
Definition iterations (from to : Z) : nat := Z.to_nat (to - from + 1).

(* chebyshev.hpp:48-74 *)
Definition chebyshev_t (n : Z) (x : list R) : outcome (list R) :=
  assert_then (0 <=? n)%Z (
  if (n =? 0)%Z then Ok (chebyshev_t0 x)
  else if (n =? 1)%Z then Ok (chebyshev_t1 x)
  else if (n =? 2)%Z then Ok (chebyshev_t2 x)
  else Ok (recurrence (iterations 3 n) x (chebyshev_t2 x) (chebyshev_t2 x) (chebyshev_t1 x))).
(* chebyshev.hpp:103-129 *)
Definition chebyshev_u (n : Z) (x : list R) : outcome (list R) :=
  assert_then (0 <=? n)%Z (
  if (n =? 0)%Z then Ok (chebyshev_u0 x)
  else if (n =? 1)%Z then Ok (chebyshev_u1 x)
  else if (n =? 2)%Z then Ok (chebyshev_u2 x)
  else Ok (recurrence (iterations 3 n) x (chebyshev_u2 x) (chebyshev_u2 x) (chebyshev_u1 x))).

(* A matrix of n_max + 1 columns, each of them not yet written (None: indeterminate values) or written. Writing
   outside or reading an indeterminate or missing column is undefined behaviour. *)
Definition columns := list (option (list R)).
Definition write_column (phi : columns) (i : nat) (c : list R) : outcome columns :=
  if (i <? length phi)%nat then Ok (set_nth phi i (Some c)) else UB.
Definition read_column (phi : columns) (i : nat) : outcome (list R) :=
  match nth_error phi i with Some (Some c) => Ok c | _ => UB end.
(* chebyshev.hpp:94-96 and 149-151 *)
Definition phi_step (x : list R) (phi : columns) (i : nat) : outcome columns :=
  a <- read_column phi (i - 1) ;;
  b <- read_column phi (i - 2) ;;
  write_column phi i (product_minus 2 x a b).
(* chebyshev.hpp:79-99 and 134-154, with the base cases c0, c1, c2 of either kind *)
Definition chebyshev_phi (c0 c1 c2 : list R -> list R) (n_max : Z) (x : list R) : outcome columns :=
  assert_then (0 <=? n_max)%Z (
  phi <- write_column (repeat None (Z.to_nat (n_max + 1))) 0 (c0 x) ;;
  phi <- (if (0 <? n_max)%Z then write_column phi 1 (c1 x) else Ok phi) ;;
  phi <- (if (1 <? n_max)%Z then write_column phi 2 (c2 x) else Ok phi) ;;
  foldM (phi_step x) (seq 3 (iterations 3 n_max)) phi).
Definition chebyshev_t_phi : Z -> list R -> outcome columns := chebyshev_phi chebyshev_t0 chebyshev_t1 chebyshev_t2.
Definition chebyshev_u_phi : Z -> list R -> outcome columns := chebyshev_phi chebyshev_u0 chebyshev_u1 chebyshev_u2.
