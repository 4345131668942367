(* What it means for a buffer to be a given matrix. *)
From Verif Require Import Base CovMatrixModel.

(* [b] is an allocated and completely initialised matrix with [rows] rows and
   [cols] columns whose entry (r, c) is [entry r c]. *)
Definition is_matrix {V} (b : buffer V) (rows cols : nat) (entry : nat -> nat -> V -> Prop) : Prop :=
  exists cells, b = Ok (map Some cells) /\ length cells = rows * cols /\
    forall r c, r < rows -> c < cols ->
      exists v, nth_error cells (r + c * rows) = Some v /\ entry r c v.

(* consecutive ranges [a, b) from start to stop *)
Fixpoint tiles (start stop : nat) (blocks : list (nat * nat)) : Prop :=
  match blocks with
  | [] => start = stop
  | (a, b) :: rest => a = start /\ a <= b /\ tiles b stop rest
  end.
