(* Vocabulary of C87. *)
From Verif Require Import Base.

Section Spec.
Context {G V : Type}.
Variable uniform : Z -> Z -> G -> Z * G.
Variable uniform_real : V -> V -> G -> V * G.
Variable le : V -> V -> bool.

(* the values drawn are in the requested range *)
Definition in_range : Prop := (forall lo hi g, (lo <= hi)%Z -> (lo <= fst (uniform lo hi g) <= hi)%Z) /\
  forall lo hi g, le lo hi = true -> le lo (fst (uniform_real lo hi g)) = true /\ le (fst (uniform_real lo hi g)) hi = true.

(* the k-th pair drawn for a row and a column *)
Fixpoint kth_pair (rows cols : Z) (k : nat) (g : G) : Z * Z :=
  let (r, g1) := uniform 0 (rows - 1) g in
  let (c, g2) := uniform 0 (cols - 1) g1 in
  match k with 0 => (r, c) | S k' => kth_pair rows cols k' g2 end.
(* from every state on, every pair is drawn at some time *)
Definition fair (rows cols : Z) : Prop :=
  forall g r c, (0 <= r < rows)%Z -> (0 <= c < cols)%Z -> exists k, kth_pair rows cols k g = (r, c).
End Spec.
