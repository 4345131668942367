(* Specification vocabulary of C44 and C63. *)
From Coq Require Import Reals.
From Verif Require Import Base CovMatrixModel CovMatrixSpec BlockDiagModel.

(* the buffer is the rows x cols matrix with entries X *)
Definition matrix_is (b : buffer R) (rows cols : nat) (X : nat -> nat -> R) : Prop :=
  is_matrix b rows cols (fun r c v => v = X r c).

Definition sum_rows (blocks : list dmx) : nat := list_sum (map drows blocks).
Definition sum_cols (blocks : list dmx) : nat := list_sum (map dcols blocks).
Definition square (b : dmx) : Prop := drows b = dcols b.

(* entry (i, j) of the block diagonal matrix *)
Fixpoint dense_at (blocks : list dmx) (i j : nat) : R :=
  match blocks with
  | [] => R0
  | b :: rest =>
      if i <? drows b then (if j <? dcols b then dat b i j else R0)
      else if j <? dcols b then R0 else dense_at rest (i - drows b) (j - dcols b)
  end.

(* entry (i, j) of the blocks on top of each other *)
Fixpoint stacked (blocks : list dmx) (i j : nat) : R :=
  match blocks with
  | [] => R0
  | b :: rest => if i <? drows b then dat b i j else stacked rest (i - drows b) j
  end.

(* what a solver of a block does: multiply by M *)
Definition multiplies (op : dmx -> outcome dmx) (M : dmx) : Prop :=
  forall x, drows x = dcols M -> exists v, op x = Ok v /\ drows v = drows M /\ dcols v = dcols x /\
    forall i j, i < drows M -> j < dcols x -> dat v i j = rsum (fun k => (dat M i k * dat x k j)%R) (dcols M).

(* M A = 1 and A M = 1 *)
Definition inverse_of (A M : dmx) : Prop :=
  square A /\ square M /\ drows M = drows A /\
  forall i j, i < drows A -> j < drows A ->
    rsum (fun k => (dat A i k * dat M k j)%R) (drows A) = if i =? j then 1%R else 0%R.

(* S S^T = A, block by block *)
Definition root_of (A S : dmx) : Prop :=
  square A /\ square S /\ drows S = drows A /\
  forall i j, i < drows A -> j < drows A ->
    rsum (fun k => (dat S i k * dat S j k)%R) (drows A) = dat A i j.
