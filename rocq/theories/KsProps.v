(* C61: the Kolmogorov-Smirnov statistic. *)
From Coq Require Import Reals List Permutation Lra Lia.
From Verif Require Import ExtRealModel DistanceProofs KsModel KsSpec KsProofs.
Import ListNotations.
Local Open Scope R_scope.

(* the result is the supremum of the distance between the empirical and the uniform distribution function *)
Theorem C61_supremum s : s <> [] -> (forall x, In x s -> 0 <= x <= 1) -> ks_distance s (uniform_ks_test s).
Proof. exact (ks_lub s). Qed.
Print Assumptions C61_supremum.
Example C61_supremum_meets : [1 / 4; 1 / 2] <> [] /\ forall x, In x [1 / 4; 1 / 2] -> 0 <= x <= 1.
Proof. split; [discriminate|]. intros x [<-|[<-|[]]]; lra. Qed.

(* no other number is that supremum, so the result is determined by the samples as a multiset *)
Theorem C61_unique s d : s <> [] -> (forall x, In x s -> 0 <= x <= 1) -> ks_distance s d -> d = uniform_ks_test s.
Proof.
  intros ne H [U L]. destruct (ks_lub s ne H) as [U' L']. apply Rle_antisym; auto.
Qed.
Print Assumptions C61_unique.
Theorem C61_order s s' : Permutation s s' -> uniform_ks_test s = uniform_ks_test s'.
Proof. exact (ks_perm s s'). Qed.
Print Assumptions C61_order.

(* between 1 / 2n and 1 *)
Theorem C61_bounds s : s <> [] -> (forall x, In x s -> 0 <= x <= 1) -> / (2 * INR (length s)) <= uniform_ks_test s <= 1.
Proof. exact (ks_bounds s). Qed.
Print Assumptions C61_bounds.
(* no samples: 0 *)
Theorem C61_empty : uniform_ks_test [] = 0.
Proof. reflexivity. Qed.

(* samples outside [0, 1] are not compared to the uniform distribution function: the result may exceed 1 *)
Theorem C61_outside_refuted : uniform_ks_test [2] = 2 /\ ~ ks_distance [2] (uniform_ks_test [2]).
Proof.
  assert (E : uniform_ks_test [2] = 2).
  { unfold uniform_ks_test. simpl. rewrite step_max. simpl. rewrite (Rmax_right ((0 + 1) / 1 - 2)) by lra. rewrite Rmax_right; lra. }
  split; auto. rewrite E. intros [_ L]. assert (2 <= 1); [|lra]. apply L. intros v [t ->].
  assert (U : 0 <= uniform_cdf t <= 1).
  { unfold uniform_cdf. split; [apply Rmax_l|]. apply Rmax_lub; [lra|apply Rmin_l]. }
  assert (F : 0 <= empirical_cdf [2] t <= 1).
  { unfold empirical_cdf, count_le. simpl. destruct (Rle_dec 2 t); simpl; lra. }
  apply Rabs_le. lra.
Qed.
Print Assumptions C61_outside_refuted.
