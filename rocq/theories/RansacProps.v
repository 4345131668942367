(* Properties C21 and C22 of properties.jsonl. The callbacks are arbitrary
   functions and [uniform] any random engine whose values are in range. *)
From Coq Require Import Permutation.
From Verif Require Import Base StdMapModel StdMapProofs IndexingModel DatasetModel RandomModel RandomProofs RandomProps DoubleModel
  RansacModel RansacSpec RansacProofs.

Section Props.
Context {K : Type} `{OrdKey K} {F G : Type}.
Implicit Types (fitter : list K -> F) (im : K -> F -> dbl) (cm : list K -> dbl) (iv : list K -> bool)
  (uniform : Z -> Z -> G -> Z * G) (groups : list K) (thr : dbl) (n minc maxi maxf dfuel : nat) (g : G)
  (out : ransac_output K).

Definition invalid_arguments groups n minc maxi : Prop :=
  length groups <= minc \/ minc < n \/ length groups <= n \/ n = 0 \/ maxi = 0.

Lemma invalid_arguments_iff groups n minc maxi :
  (length groups <=? minc) || (minc <? n) || (length groups <=? n) || (n =? 0) || (maxi =? 0) = true <->
  invalid_arguments groups n minc maxi.
Proof.
  rewrite !Bool.orb_true_iff, !Nat.leb_le, Nat.ltb_lt, !Nat.eqb_eq. unfold invalid_arguments. tauto.
Qed.

Lemma ransac_cases fitter im cm iv uniform dfuel groups thr n minc maxi maxf g out :
  in_range_engine uniform -> (Z.of_nat (length groups) < 2 ^ 64)%Z ->
  ransac fitter im cm iv uniform dfuel groups thr n minc maxi maxf g = Some (Ok out) ->
  (invalid_arguments groups n minc maxi /\ out = RO RANSAC_INVALID_ARGUMENTS empty_iteration []) \/
  (~ invalid_arguments groups n minc maxi /\ final_ok fitter im cm iv groups thr n minc maxi maxf out).
Proof.
  intros Hu Hs E. pose proof (ransac_spec fitter im cm iv uniform dfuel groups thr n minc maxi maxf g Hu Hs) as Hr.
  rewrite E in Hr. destruct (_ || (maxi =? 0)) eqn:Ea; [left|right]; (split; [|exact Hr]).
  - apply invalid_arguments_iff, Ea.
  - rewrite <- invalid_arguments_iff. congruence.
Qed.

(* Success: the best iteration was evaluated, has enough consensus, none is
   better, and exactly the requested number of iterations was evaluated. *)
Theorem C21_success : forall fitter im cm iv uniform dfuel groups thr n minc maxi maxf g out,
  in_range_engine uniform -> (Z.of_nat (length groups) < 2 ^ 64)%Z ->
  ransac fitter im cm iv uniform dfuel groups thr n minc maxi maxf g = Some (Ok out) ->
  ro_code out = RANSAC_SUCCESS ->
  is_best fitter im cm iv groups thr n minc (ro_best out) (ro_iterations out) /\
  exists failed, iters_ok fitter im cm iv groups thr n minc (ro_iterations out) maxi failed /\
    (failed < maxf \/ failed = 0).
Proof.
  intros * Hu Hs E Hc. destruct (ransac_cases _ _ _ _ _ _ _ _ _ _ _ _ _ _ Hu Hs E) as [[_ ->]|[_ Hf]]; [discriminate|].
  unfold final_ok in Hf. rewrite Hc in Hf. exact Hf.
Qed.

(* Every evaluated iteration (the best one in particular) partitions the groups
   into candidates, inliers and outliers, ... *)
Theorem C21_partition : forall fitter im cm iv groups thr n minc (it : iteration K) k,
  evaluated fitter im cm iv groups thr n minc it ->
  (In k groups <-> In k (it_candidates it) \/ mcontains k (it_inliers it) = true \/ mcontains k (it_outliers it) = true) /\
  ~ (In k (it_candidates it) /\ mcontains k (it_inliers it) = true) /\
  ~ (In k (it_candidates it) /\ mcontains k (it_outliers it) = true) /\
  ~ (mcontains k (it_inliers it) = true /\ mcontains k (it_outliers it) = true).
Proof. exact (@evaluated_partition K _ F). Qed.

(* ... and the consensus has no repeated group. *)
Theorem C21_consensus_distinct : forall fitter im cm iv groups thr n minc (it : iteration K),
  NoDup groups -> evaluated fitter im cm iv groups thr n minc it -> NoDup (consensus it).
Proof. exact (@evaluated_consensus_NoDup K _ F). Qed.

(* No consensus is reported exactly when no iteration had enough of it. *)
Theorem C21_no_consensus : forall fitter im cm iv uniform dfuel groups thr n minc maxi maxf g out,
  in_range_engine uniform -> (Z.of_nat (length groups) < 2 ^ 64)%Z ->
  ransac fitter im cm iv uniform dfuel groups thr n minc maxi maxf g = Some (Ok out) ->
  ro_code out = RANSAC_NO_CONSENSUS ->
  ro_best out = empty_iteration /\
  (exists failed, iters_ok fitter im cm iv groups thr n minc (ro_iterations out) maxi failed /\
    (failed < maxf \/ failed = 0)) /\
  forall it, In it (ro_iterations out) -> evaluated fitter im cm iv groups thr n minc it -> ~ enough minc it.
Proof.
  intros * Hu Hs E Hc. destruct (ransac_cases _ _ _ _ _ _ _ _ _ _ _ _ _ _ Hu Hs E) as [[_ ->]|[_ Hf]]; [discriminate|].
  unfold final_ok in Hf. rewrite Hc in Hf. tauto.
Qed.

(* Too many rejected candidates: exactly the allowed number (one if none is
   allowed) was rejected, and fewer than max_iterations were evaluated. *)
Theorem C21_exceeded : forall fitter im cm iv uniform dfuel groups thr n minc maxi maxf g out,
  in_range_engine uniform -> (Z.of_nat (length groups) < 2 ^ 64)%Z ->
  ransac fitter im cm iv uniform dfuel groups thr n minc maxi maxf g = Some (Ok out) ->
  ro_code out = RANSAC_EXCEEDED_MAX_FAILED_CANDIDATES ->
  exists i, i < maxi /\ iters_ok fitter im cm iv groups thr n minc (ro_iterations out) i (Nat.max 1 maxf).
Proof.
  intros * Hu Hs E Hc. destruct (ransac_cases _ _ _ _ _ _ _ _ _ _ _ _ _ _ Hu Hs E) as [[_ ->]|[_ Hf]]; [discriminate|].
  unfold final_ok in Hf. rewrite Hc in Hf. tauto.
Qed.

(* Invalid arguments are reported exactly when the arguments are invalid, and
   then nothing was run. *)
Theorem C21_invalid_arguments : forall fitter im cm iv uniform dfuel groups thr n minc maxi maxf g out,
  in_range_engine uniform -> (Z.of_nat (length groups) < 2 ^ 64)%Z ->
  ransac fitter im cm iv uniform dfuel groups thr n minc maxi maxf g = Some (Ok out) ->
  (ro_code out = RANSAC_INVALID_ARGUMENTS <-> invalid_arguments groups n minc maxi) /\
  (invalid_arguments groups n minc maxi -> out = RO RANSAC_INVALID_ARGUMENTS empty_iteration []) /\
  ro_code out <> RANSAC_INVALID /\ ro_code out <> RANSAC_FAILURE.
Proof.
  intros * Hu Hs E. destruct (ransac_cases _ _ _ _ _ _ _ _ _ _ _ _ _ _ Hu Hs E) as [[Hi ->]|[Hi Hf]].
  - cbn. repeat split; auto; discriminate.
  - unfold final_ok in Hf. destruct (ro_code out); try contradiction; repeat split; try contradiction; discriminate.
Qed.

(* The number of iterations is bounded. *)
Theorem C21_bounded : forall fitter im cm iv uniform dfuel groups thr n minc maxi maxf g out,
  in_range_engine uniform -> (Z.of_nat (length groups) < 2 ^ 64)%Z ->
  ransac fitter im cm iv uniform dfuel groups thr n minc maxi maxf g = Some (Ok out) ->
  length (ro_iterations out) <= maxi + (maxf - 1).
Proof.
  intros * Hu Hs E. destruct (ransac_cases _ _ _ _ _ _ _ _ _ _ _ _ _ _ Hu Hs E) as [[Hi ->]|[Hi Hf]]; [cbn; lia|].
  assert (forall i f, iters_ok fitter im cm iv groups thr n minc (ro_iterations out) i f ->
    length (ro_iterations out) = i + f) as Hl.
  { intros i f [ev [rj [Hp [_ [_ [<- <-]]]]]]. rewrite (Permutation.Permutation_length Hp). apply app_length. }
  unfold final_ok in Hf. destruct (ro_code out); try contradiction.
  - destruct Hf as [_ [f [Hf Hb]]]. rewrite (Hl _ _ Hf). lia.
  - destruct Hf as [_ [_ [f [Hf Hb]]]]. rewrite (Hl _ _ Hf). lia.
  - destruct Hf as [_ [i [Hi' Hf]]]. rewrite (Hl _ _ Hf). lia.
Qed.

(* It returns as soon as each sample can be drawn; it never fails an assertion. *)
Theorem C21_terminates : forall fitter im cm iv uniform dfuel groups thr n minc maxi maxf g,
  in_range_engine uniform -> (Z.of_nat (length groups) < 2 ^ 64)%Z ->
  (forall g', random_without_replacement uniform dfuel groups n g' <> None) ->
  exists out, ransac fitter im cm iv uniform dfuel groups thr n minc maxi maxf g = Some (Ok out).
Proof.
  intros * Hu Hs Ht. pose proof (ransac_spec fitter im cm iv uniform dfuel groups thr n minc maxi maxf g Hu Hs) as Hr.
  destruct (ransac fitter im cm iv uniform dfuel groups thr n minc maxi maxf g) as [[out| | |]|]; try contradiction.
  - eauto.
  - destruct Hr as [g' Hg]. exfalso. exact (Ht g' Hg).
Qed.

(* The RANSAC model is fitted to exactly the rows of the groups of the consensus
   of the best iteration, and is empty unless RANSAC succeeded. *)
Theorem C21_fit : forall {X D M} (fit : dataset X D -> M) (indexer : smap K (list nat)) d out r,
  ransac_fit fit indexer d out = Ok r ->
  (ro_code out <> RANSAC_SUCCESS /\ r = None) \/
  (ro_code out = RANSAC_SUCCESS /\ exists ls sub,
     Forall2 (fun k l => mfind k indexer = Some l) (consensus (ro_best out)) ls /\
     dataset_subset d (concat ls) = Ok sub /\ r = Some (fit sub)).
Proof. exact (@ransac_fit_spec K _). Qed.

(* ---- C22 ---- *)
(* what operator== decides: the codes and the iterations are the same and no
   metric is NaN; the best iteration of the right operand does not matter *)
Theorem C22_equality_is : forall (a b : ransac_output K), output_eqb a b = true <->
  ro_code a = ro_code b /\ ro_iterations a = ro_iterations b /\
  Forall metrics_present (ro_iterations a) /\ metrics_present (ro_best a).
Proof. exact (@output_eqb_spec K _). Qed.
End Props.
Print Assumptions C21_success.
Print Assumptions C21_partition.
Print Assumptions C21_consensus_distinct.
Print Assumptions C21_no_consensus.
Print Assumptions C21_exceeded.
Print Assumptions C21_invalid_arguments.
Print Assumptions C21_bounded.
Print Assumptions C21_terminates.
Print Assumptions C21_fit.
Print Assumptions C22_equality_is.

(* equality of single iterations is right: equal iterations, without NaN metrics *)
Theorem C22_iteration_equality : forall {K} `{OrdKey K} (a b : iteration K), iteration_eqb a b = true <->
  a = b /\ Forall (fun kv => snd kv <> NaN) (it_inliers a) /\ Forall (fun kv => snd kv <> NaN) (it_outliers a).
Proof. exact @iteration_eqb_spec. Qed.
Print Assumptions C22_iteration_equality.

(* outputs with different best iterations compare equal *)
Theorem C22_best_ignored_refuted :
  exists a b : ransac_output nat, ro_best a <> ro_best b /\ output_eqb a b = true.
Proof.
  exists (RO RANSAC_SUCCESS (It [0] [(1, Some 2%Z)] [] (Some 5%Z)) []),
         (RO RANSAC_SUCCESS (It [1] [(0, Some 2%Z)] [] (Some 3%Z)) []).
  split; [discriminate|reflexivity].
Qed.
Print Assumptions C22_best_ignored_refuted.

(* an output with a NaN metric differs from itself *)
Theorem C22_reflexivity_refuted : exists a : ransac_output nat, output_eqb a a = false.
Proof. exists (RO RANSAC_SUCCESS (It [0] [] [(1, NaN)] (Some 5%Z)) []). reflexivity. Qed.
Print Assumptions C22_reflexivity_refuted.

(* ---- a run: four groups; the fit is the sum of the candidates; draws by replay ---- *)
Example ransac_run :
  exists out, ransac (F := Z) (fun ks => fold_right Z.add 0%Z (map Z.of_nat ks))
    (fun k f => Some (Z.abs (Z.of_nat k - f))) (fun ks => Some (- Z.of_nat (length ks))%Z)
    (fun ks => negb (list_eqb Nat.eqb ks [5])) replay 10
    [1; 2; 5; 9] (Some 1%Z) 1 2 3 2 [0; 2; 3; 1]%Z = Some (Ok out) /\
  ro_code out = RANSAC_SUCCESS /\ ro_best out = It [1] [(2, Some 1%Z)] [(5, Some 4%Z); (9, Some 8%Z)] (Some (-2)%Z) /\
  length (ro_iterations out) = 4.
Proof. eexists. split; [reflexivity|]. cbn. auto. Qed.
Example ransac_no_consensus :
  exists out, ransac (F := Z) (fun ks => fold_right Z.add 0%Z (map Z.of_nat ks))
    (fun k f => Some (Z.abs (Z.of_nat k - f))) (fun ks => Some (- Z.of_nat (length ks))%Z)
    (fun _ => true) replay 10
    [1; 3; 5; 9] (Some 1%Z) 1 2 2 2 [0; 2; 3; 1]%Z = Some (Ok out) /\ ro_code out = RANSAC_NO_CONSENSUS.
Proof. eexists. split; [reflexivity|]. reflexivity. Qed.
Example ransac_exceeded :
  exists out, ransac (F := Z) (fun ks => fold_right Z.add 0%Z (map Z.of_nat ks))
    (fun k f => Some (Z.abs (Z.of_nat k - f))) (fun ks => Some (- Z.of_nat (length ks))%Z)
    (fun ks => negb (list_eqb Nat.eqb ks [5])) replay 10
    [1; 2; 5; 9] (Some 1%Z) 1 2 3 1 [0; 2; 3; 1]%Z = Some (Ok out) /\
  ro_code out = RANSAC_EXCEEDED_MAX_FAILED_CANDIDATES.
Proof. eexists. split; [reflexivity|]. reflexivity. Qed.
