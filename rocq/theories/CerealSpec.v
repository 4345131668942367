(* Vocabulary of C32-C34 and C66. *)
From Coq Require Import Reals ZArith.
From Verif Require Import Base StdMapModel StringKeyModel ExtRealModel PriorModel ParamsModel CerealModel.
Open Scope nat_scope.
Open Scope list_scope.

(* what is saved loads again, whatever follows in the archive *)
Definition restores {bytes A} (c : codec bytes A) (x : A) : Prop :=
  exists s, save c x = Ok s /\ forall rest, load c (s ++ rest) = Ok (x, rest).
(* the same up to a relation: what is loaded may differ in what was not saved *)
Definition restores_upto {bytes A} (R : A -> A -> Prop) (c : codec bytes A) (x : A) : Prop :=
  exists s, save c x = Ok s /\ exists y, R x y /\ forall rest, load c (s ++ rest) = Ok (y, rest).

(* contracts of the external encodings *)
Definition base64_ok {bytes} (enc dec : bytes -> bytes) : Prop := forall b, dec (enc b) = b.
Definition zstd_ok {bytes E} (zc : list E -> bytes) (zd : bytes -> nat -> option (list E)) : Prop :=
  forall d, zd (zc d) (length d) = Some d.
Definition gzip_ok {bytes E} (gc : list E -> bytes) (gd : bytes -> option (list E)) : Prop :=
  forall d, gd (gc d) = Some d.

(* the storage of a matrix has its size *)
Definition wf_matrix {E} (m : matrix E) : Prop := length (data E m) = rows E m * cols E m.

(* the positions of a sparse matrix are inside, and which are inside transposed *)
Definition wf_sparse {E} (m : sparse E) : Prop :=
  Forall (fun t => fst (fst t) < srows E m /\ snd (fst t) < scols E m) (stored E m).
Definition flipped_inside {E} (m : sparse E) (n : nat) : bool :=
  forallb (fun t => (snd (fst t) <? srows E m) && (fst (fst t) <? scols E m)) (firstn n (stored E m)).

(* a factorization whose storage has its size; equal factorizations: same lower triangle,
   transpositions and state *)
Definition wf_ldlt {E} (l : ldlt E) : Prop :=
  wf_matrix (l_matrix E l) /\ rows E (l_matrix E l) = cols E (l_matrix E l) /\ wf_matrix (l_transpositions E l).
Definition same_ldlt {E} (a b : ldlt E) : Prop :=
  rows E (l_matrix E b) = rows E (l_matrix E a) /\ cols E (l_matrix E b) = cols E (l_matrix E a) /\
  (forall i j, j <= i -> i < rows E (l_matrix E a) -> entry E (l_matrix E b) i j = entry E (l_matrix E a) i j) /\
  l_transpositions E b = l_transpositions E a /\ l_initialized E b = l_initialized E a.
