(* Vocabulary for C28 and C29. *)
From Coq Require Import Reals.
From Verif Require Import Base ExtRealModel CsvModel SamplersModel.

(* contracts of the standard distributions *)
Definition int_contract {G} (uniform : Z -> Z -> G -> Z * G) : Prop :=
  forall low high g, (low <= high)%Z -> (low <= fst (uniform low high g) <= high)%Z.
Definition real_contract {G} (uniform_real : G -> R * G) : Prop :=
  forall g, (0 <= fst (uniform_real g) < 1)%R.

(* the point the stretch move proposes: coordinate by coordinate
   x_j + z (x_k - x_j), with a tiny step where the coordinates agree *)
Definition stretched (n_dim : nat) (z : R) (xk xj q : list xr) : Prop :=
  length q = length xk /\
  (forall i, i < n_dim -> exists vk vj, nth_error xk i = Some vk /\ nth_error xj i = Some vj /\
     nth_error q i = Some (xadd vj (xscale z (if xiszero (xsub vk vj) then XFin (/ 1000000) else xsub vk vj)))) /\
  (forall i, n_dim <= i -> nth_error q i = nth_error xk i).

(* a walker after a move: the proposal with its log probability, or what it was *)
Definition moved (log_prob : list xr -> xr) (s s' : sampler_state) : Prop :=
  (ss_accepted s' = true /\ ss_log_prob s' = log_prob (ss_params s') /\
   xisfinite (ss_log_prob s') = true /\ length (ss_params s') = length (ss_params s)) \/
  s' = SS (ss_params s) (ss_log_prob s) false.

(* all walkers have finite log probabilities *)
Definition all_finite (e : list sampler_state) : Prop := Forall (fun s => xisfinite (ss_log_prob s) = true) e.
(* ... that are those of their parameters *)
Definition consistent (log_prob : list xr -> xr) (e : list sampler_state) : Prop :=
  Forall (fun s => ss_log_prob s = log_prob (ss_params s)) e.
Definition same_dimension (n : nat) (e : list sampler_state) : Prop :=
  Forall (fun s => length (ss_params s) = n) e.

(* every coordinate is in a box *)
Definition in_box (lo hi : nat -> R) (s : sampler_state) : Prop :=
  forall i x, nth_error (ss_params s) i = Some x -> exists r, x = XFin r /\ (lo i <= r <= hi i)%R.
