From Coq Require Import Reals List Sorted Permutation Lra Lia.
From Verif Require Import Base BaseProofs PrintEigenModel PrintEigenSpec.
Import ListNotations.
Open Scope R_scope.

Lemma Rltb_spec x y : Rltb x y = true <-> x < y.
Proof. unfold Rltb. destruct (Rlt_dec x y); split; auto; discriminate. Qed.
Lemma Rltb_false x y : Rltb x y = false <-> y <= x.
Proof. unfold Rltb. destruct (Rlt_dec x y); split; try discriminate; auto; lra. Qed.
Lemma swo_key A (key : A -> R) : strict_weak_order A (fun a b => Rltb (key a) (key b)).
Proof.
  split; [|split].
  - intros a. apply Rltb_false. lra.
  - intros a b c. rewrite !Rltb_spec. lra.
  - intros a b c. rewrite !Rltb_false. lra.
Qed.
Lemma swo_rev A (key : A -> R) : strict_weak_order A (fun a b => Rltb (key b) (key a)).
Proof.
  split; [|split].
  - intros a. apply Rltb_false. lra.
  - intros a b c. rewrite !Rltb_spec. lra.
  - intros a b c. rewrite !Rltb_false. lra.
Qed.
Lemma sorted_impl A (P Q : A -> A -> Prop) l : (forall a b, P a b -> Q a b) -> StronglySorted P l -> StronglySorted Q l.
Proof. intros H. induction 1; constructor; auto. eapply Forall_impl; [|eassumption]. auto. Qed.
Lemma sorted_map A C (f : A -> C) (P : C -> C -> Prop) l : StronglySorted (fun a b => P (f a) (f b)) l -> StronglySorted P (map f l).
Proof. induction 1; cbn; constructor; auto. rewrite Forall_map. assumption. Qed.
Lemma sorted_filter A (P : A -> A -> Prop) p l : StronglySorted P l -> StronglySorted P (filter p l).
Proof.
  induction 1; cbn; [constructor|]. destruct (p a); auto. constructor; auto. apply Forall_forall. intros x Hx. apply filter_In in Hx.
  rewrite Forall_forall in H0. apply H0. tauto.
Qed.
Lemma filter_split A (p : A -> bool) l : Permutation (filter p l ++ filter (fun x => negb (p x)) l) l.
Proof.
  induction l as [|x l IH]; cbn; [constructor|]. destruct (p x); cbn.
  - constructor. exact IH.
  - rewrite <- Permutation_middle. constructor. exact IH.
Qed.
Lemma Permutation_filter A (p : A -> bool) l l' : Permutation l l' -> Permutation (filter p l) (filter p l').
Proof.
  induction 1; cbn; auto.
  - destruct (p x); auto.
  - destruct (p y), (p x); auto. constructor.
  - etransitivity; eassumption.
Qed.
Lemma fold_min r : forall x, (fold_left Rmin r x = x \/ In (fold_left Rmin r x) r) /\ fold_left Rmin r x <= x /\ Forall (Rle (fold_left Rmin r x)) r.
Proof.
  induction r as [|y r IH]; intros x; cbn; [repeat split; auto; lra|]. destruct (IH (Rmin x y)) as [A [B C]].
  pose proof (Rmin_l x y). pose proof (Rmin_r x y). split; [|split; [lra|constructor; [lra|exact C]]].
  destruct A as [A|A]; auto. rewrite A. destruct (Rle_dec x y); [left; apply Rmin_left; lra|right; left; symmetry; apply Rmin_right; lra].
Qed.
Lemma fold_max r : forall x, (fold_left Rmax r x = x \/ In (fold_left Rmax r x) r) /\ x <= fold_left Rmax r x /\ Forall (fun v => v <= fold_left Rmax r x) r.
Proof.
  induction r as [|y r IH]; intros x; cbn; [repeat split; auto; lra|]. destruct (IH (Rmax x y)) as [A [B C]].
  pose proof (Rmax_l x y). pose proof (Rmax_r x y). split; [|split; [lra|constructor; [lra|exact C]]].
  destruct A as [A|A]; auto. rewrite A. destruct (Rle_dec x y); [right; left; symmetry; apply Rmax_right; lra|left; apply Rmax_left; lra].
Qed.

Section P.
Variable feature : Type.
Variable sort : forall A : Type, (A -> A -> bool) -> list A -> list A.
Hypothesis sort_ok : sorts sort.
Variables (features : list feature) (threshold : R).

Definition at_ (vector : list R) (k : nat) : option (R * feature) :=
  match nth_error vector k, nth_error features k with Some c, Some f => Some (c, f) | _, _ => None end.
Lemma at_combine vector : length vector = length features -> forall k, at_ vector k = nth_error (combine vector features) k.
Proof.
  intros L k. unfold at_. clear threshold. revert vector L k. induction features as [|f fs IH]; intros [|x v] L [|k]; try discriminate; cbn; auto.
Qed.
Definition above (cf : R * feature) : bool := Rltb threshold (Rabs (fst cf)).
Lemma coefs_spec vector idx cfs : map (at_ vector) idx = map Some cfs ->
  print_coefs feature vector features threshold idx = Ok (map (fun cf => Coef feature (fst cf) (snd cf)) (filter above cfs)).
Proof.
  revert cfs. induction idx as [|k idx IH]; intros [|cf cfs] E; try discriminate; [reflexivity|]. cbn in E. injection E as E0 E.
  unfold at_ in E0. cbn. destruct (nth_error vector k) as [c|]; [|discriminate]. destruct (nth_error features k) as [f|]; [|discriminate].
  injection E0 as <-. unfold above at 1. cbn. rewrite (IH _ E). destruct (Rltb threshold (Rabs c)); reflexivity.
Qed.
Lemma seq_nth_error A (l : list A) : map (nth_error l) (seq 0 (length l)) = map Some l.
Proof.
  apply list_ext. intros i. rewrite !nth_error_map'. destruct (Nat.lt_ge_cases i (length l)) as [H|H].
  - rewrite (nth_error_nth' _ 0%nat) by (rewrite seq_length; exact H). rewrite seq_nth by exact H. cbn.
    destruct (nth_error l i) eqn:E; [reflexivity|]. apply nth_error_None in E. lia.
  - rewrite (proj2 (nth_error_None (seq 0 (length l)) i)) by (rewrite seq_length; exact H).
    rewrite (proj2 (nth_error_None l i)) by exact H. reflexivity.
Qed.
Lemma all_some A C (f : A -> option C) l : Forall (fun x => f x <> None) l -> exists m, map f l = map Some m.
Proof.
  induction 1 as [|x l H F [m E]]; [exists []; reflexivity|]. destruct (f x) as [y|] eqn:Ey; [|congruence]. exists (y :: m). cbn. rewrite Ey, E. reflexivity.
Qed.
Lemma map_Some_perm A (l m : list A) : Permutation (map Some l) (map Some m) -> Permutation l m.
Proof.
  intros H. apply (Permutation_flat_map (fun o : option A => match o with Some x => [x] | None => [] end)) in H.
  rewrite !flat_map_concat_map, !map_map in H. assert (forall l : list A, concat (map (fun x => [x]) l) = l) as E. { intros q. induction q; cbn; congruence. }
  cbn in H. rewrite !E in H. exact H.
Qed.
Lemma direction_spec vv : length (snd vv) = length features -> exists d, describes feature features threshold vv d /\
  print_direction feature sort features threshold vv = Ok (EigenValue feature (fst d) :: map (fun cf => Coef feature (fst cf) (snd cf)) (snd d)).
Proof.
  intros L. unfold print_direction. destruct vv as [value vector]. cbn [fst snd] in *.
  destruct (sort_ok nat _ (seq 0 (length vector)) (swo_rev nat (fun i => Rabs (nth i vector 0)))) as [P S].
  set (idx := sort nat _ _) in *.
  assert (Forall (fun k => at_ vector k <> None) idx) as F.
  { apply Forall_forall. intros k Hk. apply (Permutation_in _ (Permutation_sym P)) in Hk. apply in_seq in Hk. rewrite at_combine by exact L.
    apply nth_error_Some. rewrite combine_length. lia. }
  destruct (all_some _ _ _ _ F) as [cfs E]. rewrite (coefs_spec _ _ _ E). cbn [bind].
  exists (value, filter above cfs). split; [|reflexivity]. split; [reflexivity|]. exists (filter (fun x => negb (above x)) cfs). cbn [fst snd].
  split; [|split; [|split]].
  - apply Forall_forall. intros x Hx. apply filter_In in Hx. apply Rltb_spec. tauto.
  - apply Forall_forall. intros x Hx. apply filter_In in Hx. apply Rltb_false. destruct Hx as [_ Hx]. unfold above in Hx. destruct (Rltb threshold (Rabs (fst x))); [discriminate|reflexivity].
  - etransitivity; [apply filter_split|]. apply map_Some_perm. rewrite <- E, <- (seq_nth_error _ (combine vector features)), combine_length, <- L, Nat.min_id.
    rewrite (map_ext (at_ vector) _ (at_combine vector L)). apply Permutation_map. symmetry. exact P.
  - apply sorted_filter. clear P F. revert cfs E. induction S as [|k l S IH F]; intros [|cf cfs] E; try discriminate; constructor.
    + injection E as _ E. auto.
    + injection E as E0 E. apply Forall_forall. intros x Hx. apply (in_map Some) in Hx. rewrite <- E in Hx. apply in_map_iff in Hx. destruct Hx as [j [Ej Hj]].
      rewrite Forall_forall in F. specialize (F j Hj). apply Rltb_false in F.
      assert (forall k y, at_ vector k = Some y -> nth k vector 0 = fst y) as Q.
      { intros k' y H. unfold at_ in H. destruct (nth_error vector k') eqn:V; [|discriminate]. destruct (nth_error features k'); [|discriminate]. injection H as <-.
        apply nth_error_nth. exact V. }
      rewrite (Q _ _ E0), (Q _ _ Ej) in F. exact F.
Qed.
Lemma directions_spec count : forall vvs, (count <= length vvs)%nat -> Forall (fun vv => length (snd vv) = length features) vvs ->
  exists ds, Forall2 (describes feature features threshold) (firstn count vvs) ds /\
  print_directions feature sort vvs features threshold count =
  Ok (flat_map (fun d => EigenValue feature (fst d) :: map (fun cf => Coef feature (fst cf) (snd cf)) (snd d)) ds).
Proof.
  induction count as [|count IH]; intros vvs H F; [exists []; split; [apply Forall2_nil|reflexivity]|].
  destruct vvs as [|vv vvs]; [cbn in H; lia|]. inversion F; subst. cbn in H.
  destruct (direction_spec vv) as [d [D E]]; [assumption|]. destruct (IH vvs) as [ds [DS ES]]; [lia|assumption|].
  exists (d :: ds). split; [constructor; assumption|]. cbn. rewrite E, ES. reflexivity.
Qed.
Section Order.
Variable eigen_solver : list (list R) -> list R * list (list R).
Variables (comp : R -> R -> bool) (le : R -> R -> Prop).
Hypothesis comp_swo : forall A (key : A -> R), strict_weak_order A (fun a b => comp (key a) (key b)).
Hypothesis comp_le : forall a b, comp b a = false -> le a b.
Theorem print_spec matrix count values vectors : eigen_solver matrix = (values, vectors) -> length values = length vectors ->
  Forall (fun v => length v = length features) vectors -> values <> [] -> (count <= length values)%nat ->
  exists out, print_eigen_directions feature eigen_solver sort matrix features count comp threshold = Ok out /\
    reports feature le features threshold (combine values vectors) count out.
Proof.
  intros EV L F NE C. unfold print_eigen_directions. rewrite EV. cbn [fst snd].
  destruct (sort_ok _ _ (combine values vectors) (comp_swo _ fst)) as [P S].
  set (vvs := sort _ _ _) in *.
  assert (length vvs = length values) as LV. { rewrite <- (Permutation_length P), combine_length. lia. }
  destruct (directions_spec count vvs) as [ds [D E]].
  { lia. }
  { apply Forall_forall. intros vv H. apply (Permutation_in _ (Permutation_sym P)) in H. destruct vv as [v x]. apply in_combine_r in H.
    rewrite Forall_forall in F. apply F. exact H. }
  assert (map fst (combine values vectors) = values) as MF.
  { clear -L. revert vectors L. induction values as [|v vs IH]; intros [|x xs] L; try discriminate; cbn; [reflexivity|]. f_equal. apply IH. cbn in L. lia. }
  rewrite E. destruct values as [|v vs]; [congruence|]. cbn [minCoeff maxCoeff bind].
  eexists. split; [reflexivity|]. exists (fold_left Rmin vs v), (fold_left Rmax vs v), ds, (firstn count vvs), (skipn count vvs).
  rewrite MF, firstn_skipn. destruct (fold_min vs v) as [A1 [A2 A3]], (fold_max vs v) as [B1 [B2 B3]].
  split; [reflexivity|]. split; [destruct A1 as [->|A1]; cbn; auto|]. split; [constructor; assumption|].
  split; [destruct B1 as [->|B1]; cbn; auto|]. split; [constructor; assumption|]. split; [rewrite firstn_length; lia|].
  split; [symmetry; exact P|]. split; [|exact D]. apply sorted_map. eapply sorted_impl; [|exact S]. cbn. auto.
Qed.
End Order.
Theorem print_too_many eigen_solver comp matrix count values vectors : eigen_solver matrix = (values, vectors) -> length values = length vectors ->
  (forall A (key : A -> R), strict_weak_order A (fun a b => comp (key a) (key b))) -> 
  Forall (fun v => length v = length features) vectors -> values <> [] -> (length values < count)%nat ->
  print_eigen_directions feature eigen_solver sort matrix features count comp threshold = UB.
Proof.
  intros EV L CS F NE C. unfold print_eigen_directions. rewrite EV. cbn [fst snd].
  destruct (sort_ok _ _ (combine values vectors) (CS _ fst)) as [P _]. set (vvs := sort _ _ _) in *.
  assert (length vvs < count)%nat as LV. { rewrite <- (Permutation_length P), combine_length. lia. }
  assert (Forall (fun vv => length (snd vv) = length features) vvs) as FV.
  { apply Forall_forall. intros vv H. apply (Permutation_in _ (Permutation_sym P)) in H. destruct vv as [v x]. apply in_combine_r in H.
    rewrite Forall_forall in F. apply F. exact H. }
  assert (print_directions feature sort vvs features threshold count = UB) as E.
  { clear -LV FV sort_ok. revert count LV. induction FV as [|vv l H FV IH]; intros [|count] LV; cbn in *; try lia; [reflexivity|].
    destruct (direction_spec vv H) as [d [_ ->]]. cbn. rewrite IH by lia. reflexivity. }
  rewrite E. destruct values; [congruence|]. reflexivity.
Qed.
End P.
