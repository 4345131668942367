(* Property C15 of properties.jsonl. [uniform] is any random engine whose values
   are in the requested range. *)
From Verif Require Import Base StdMapModel IndexingModel RandomModel RandomProofs.

Definition in_range_engine {G} (uniform : Z -> Z -> G -> Z * G) : Prop :=
  forall lo hi g, (lo <= hi)%Z -> (lo <= fst (uniform lo hi g) <= hi)%Z.

(* exactly n distinct values of the range, in increasing order *)
Theorem C15_distinct_in_range : forall (G : Type) (uniform : Z -> Z -> G -> Z * G),
  in_range_engine uniform ->
  forall (fuel n : nat) (low high : Z) (g g' : G) (out : list Z),
  (0 <= low <= high)%Z -> (high < 2 ^ 64)%Z -> (high - low + 1 < 2 ^ 64)%Z ->
  randint_without_replacement uniform fuel n low high g = Some (Ok (out, g')) ->
  StronglySorted Z.lt out /\ length out = n /\ Forall (fun v => (low <= v <= high)%Z) out.
Proof. intros G u Hu fuel n lo hi g g' out. exact (@randint_rec_spec G u Hu 2 fuel n lo hi g out g'). Qed.
Print Assumptions C15_distinct_in_range.

(* asking for more values than there are fails an assertion; nothing else can
   go wrong *)
Theorem C15_outcomes : forall (G : Type) (uniform : Z -> Z -> G -> Z * G),
  forall (fuel n : nat) (low high : Z) (g : G),
  (0 <= low <= high)%Z -> (high < 2 ^ 64)%Z -> (high - low + 1 < 2 ^ 64)%Z ->
  match randint_without_replacement uniform fuel n low high g with
  | Some (Ok _) => (Z.of_nat n <= high - low + 1)%Z
  | Some Abort => (high - low + 1 < Z.of_nat n)%Z
  | Some _ => False
  | None => True
  end.
Proof. intros G u fuel. exact (@randint_rec_outcomes G u 2 fuel). Qed.
Print Assumptions C15_outcomes.

(* the recursion is never deeper than one call *)
Theorem C15_depth : forall (G : Type) (uniform : Z -> Z -> G -> Z * G)
    (extra fuel n : nat) (low high : Z) (g : G),
  (0 <= low <= high)%Z -> (high < 2 ^ 64)%Z -> (high - low + 1 < 2 ^ 64)%Z ->
  randint_rec uniform (2 + extra) fuel n low high g = randint_rec uniform 2 fuel n low high g.
Proof. exact @randint_depth. Qed.
Print Assumptions C15_depth.

(* it returns as soon as the draws have enough distinct values *)
Theorem C15_returns : forall (G : Type) (uniform : Z -> Z -> G -> Z * G),
  forall (fuel n : nat) (low high : Z) (g : G) (l l' : list Z),
  (0 <= low <= high)%Z -> (high < 2 ^ 64)%Z -> (high - low + 1 < 2 ^ 64)%Z ->
  (Z.of_nat n <= high - low + 1)%Z ->
  NoDup l -> incl l (draws uniform low high fuel g) -> n <= length l ->
  NoDup l' -> incl l' (draws uniform 0 (high - low) fuel g) ->
  Z.to_nat (high - low + 1) - n <= length l' ->
  exists r, randint_without_replacement uniform fuel n low high g = Some (Ok r).
Proof.
  intros. eapply randint_returns; eauto using distinct_draws.
Qed.
Print Assumptions C15_returns.

(* every set of n values of the range is the outcome of some stream *)
Theorem C15_every_choice : forall (low high : Z) (l : list Z),
  (0 <= low <= high)%Z -> (high < 2 ^ 64)%Z -> (high - low + 1 < 2 ^ 64)%Z ->
  StronglySorted Z.lt l -> Forall (fun v => (low <= v <= high)%Z) l ->
  exists (uniform : Z -> Z -> list Z -> Z * list Z) fuel g g',
    in_range_engine uniform /\
    randint_without_replacement uniform fuel (length l) low high g = Some (Ok (l, g')).
Proof.
  intros lo hi l H1 H2 H3 H4 H5. destruct (randint_every_choice lo hi l H1 H2 H3 H4 H5) as [fuel [g E]].
  exists replay, fuel, g, []. split; [exact replay_contract|exact E].
Qed.
Print Assumptions C15_every_choice.

(* random_without_replacement takes n elements at increasing (hence distinct)
   positions *)
Theorem C15_random_without_replacement : forall (G : Type) (uniform : Z -> Z -> G -> Z * G),
  in_range_engine uniform ->
  forall (X : Type) (fuel : nat) (xs : list X) (n : nat) (g : G) r,
  (Z.of_nat (length xs) < 2 ^ 64)%Z ->
  random_without_replacement uniform fuel xs n g = Some r ->
  (n <= length xs /\ exists out g' inds, r = Ok (out, g') /\
     StronglySorted lt inds /\ length inds = n /\ subset xs inds = Ok out) \/
  (length xs < n /\ r = Abort).
Proof. exact @random_without_replacement_spec. Qed.
Print Assumptions C15_random_without_replacement.

Example C15_ex : 
  randint_without_replacement replay 5 3 10 14 [12; 10; 12; 14]%Z = Some (Ok ([10; 12; 14], []))%Z /\
  randint_without_replacement replay 5 4 10 14 [2; 1]%Z = Some (Ok ([10; 11; 13; 14], [1]))%Z /\
  randint_without_replacement replay 5 6 10 14 [] = Some Abort /\
  randint_without_replacement replay 2 3 10 14 [12; 12; 12; 14]%Z = None /\
  random_without_replacement replay 5 [7; 8; 9] 2 [2; 0]%Z = Some (Ok ([7; 9], [])) /\
  random_without_replacement replay 5 (@nil nat) 1 [] = Some Abort.
Proof. repeat split. Qed.

(* Without the assertion (NDEBUG) the guard is gone; and the full 64 bit range
   wraps to no choices at all, so that even one value cannot be drawn. *)
Theorem C15_full_range_refuted : exists (n : nat) (low high : Z),
  (0 <= low <= high)%Z /\ (high < 2 ^ 64)%Z /\ (Z.of_nat n <= high - low + 1)%Z /\
  forall (G : Type) (uniform : Z -> Z -> G -> Z * G) fuel g,
    randint_without_replacement uniform fuel n low high g = Some Abort.
Proof. exists 1, 0%Z, (2 ^ 64 - 1)%Z. repeat split; try (vm_compute; congruence). Qed.
Print Assumptions C15_full_range_refuted.
