From Coq Require Import Lia.
From Verif Require Import Base BaseProofs IndexingModel DatasetModel VariantModel VariantSpec.

Lemma is_in_spec x ts : is_in_variant x ts = true <-> In x ts.
Proof.
  unfold is_in_variant. rewrite existsb_exists. split.
  - intros (y & Hy & E). apply Nat.eqb_eq in E. subst. exact Hy.
  - intros H. exists x. split; [exact H|apply Nat.eqb_refl].
Qed.
Lemma is_in_false x ts : is_in_variant x ts = false <-> ~ In x ts.
Proof. rewrite <- is_in_spec. destruct (is_in_variant x ts); split; congruence. Qed.
Lemma is_sub_spec xs ts : is_sub_variant xs ts = true <-> incl xs ts.
Proof.
  unfold is_sub_variant, incl. rewrite forallb_forall. split; intros H x Hx; [apply is_in_spec|apply is_in_spec]; auto.
Qed.

Lemma alternative_spec t ts : forall i, match alternative t ts i with
  | Some j => exists k, j = i + k /\ nth_error ts k = Some t
  | None => ~ In t ts
  end.
Proof.
  induction ts as [|u ts IH]; intros i; cbn [alternative]; [intros []|].
  destruct (Nat.eqb_spec t u) as [->|Hne].
  - exists 0. split; [lia|reflexivity].
  - specialize (IH (S i)). destruct (alternative t ts (S i)) as [j|].
    + destruct IH as (k & -> & Hk). exists (S k). split; [lia|exact Hk].
    + intros [<-|H]; [congruence|exact (IH H)].
Qed.
Lemma make_variant_spec {V} t (v : V) ts : In t ts ->
  exists x, make_variant t v ts = Some x /\ typed (Variant ts) x /\ content (Variant ts) x = Some (t, v).
Proof.
  intros H. unfold make_variant. pose proof (alternative_spec t ts 0) as A.
  destruct (alternative t ts 0) as [j|]; [|contradiction]. destruct A as (k & -> & Hk). simpl.
  exists (VAlt k v). split; [reflexivity|]. split.
  - cbn. apply nth_error_Some. congruence.
  - cbn. rewrite Hk. reflexivity.
Qed.

Lemma value_to_spec {V} x out (v : value V) : incl (types_of x) (types_of out) -> (match out with Plain _ => x = out | _ => True end) ->
  typed x v -> exists w, value_to x out v = Some w /\ typed out w /\ content out w = content x v.
Proof.
  intros Hi Ho Ht. destruct x as [t|us].
  - destruct v as [v|]; [|contradiction]. destruct out as [u|ts].
    + injection Ho as ->. cbn. rewrite Nat.eqb_refl. eauto.
    + cbn [value_to plain_to]. destruct (make_variant_spec t v ts) as (w & E & T & C); [apply Hi; left; reflexivity|].
      exists w. rewrite C. auto.
  - destruct v as [|i v]; [contradiction|]. cbn in Ht. destruct out as [u|ts]; [discriminate|].
    cbn [value_to]. unfold variant_to. cbn [match_value].
    destruct (nth_error us i) as [t|] eqn:E; [|apply nth_error_None in E; lia]. cbn [option_map].
    destruct (make_variant_spec t v ts) as (w & E' & T & C); [apply Hi; eapply nth_error_In; exact E|].
    exists w. rewrite C. cbn [content]. rewrite E. auto.
Qed.

Lemma convert_all_spec {V} x out (vs : list (value V)) : incl (types_of x) (types_of out) -> (match out with Plain _ => x = out | _ => True end) ->
  Forall (typed x) vs -> exists ws, convert_all (value_to x out) vs = Some ws /\ Forall (typed out) ws /\ contents out ws = contents x vs.
Proof.
  intros Hi Ho. induction vs as [|v vs IH]; intros Hf.
  - exists []. repeat split; constructor.
  - inversion Hf as [|? ? H1 H2]; subst. destruct (value_to_spec x out v Hi Ho H1) as (w & E & T & C).
    destruct (IH H2) as (ws & E' & T' & C'). exists (w :: ws). cbn [convert_all]. rewrite E, E'.
    split; [reflexivity|]. split; [constructor; assumption|]. unfold contents in *. cbn [map]. congruence.
Qed.

Lemma concatenation_type_spec x y : proper x -> proper y ->
  match concatenation_type x y with
  | Some out => proper out /\ (forall t, In t (types_of out) <-> In t (types_of x) \/ In t (types_of y)) /\
      (match out with Plain _ => x = out /\ y = out | _ => True end)
  | None => exists ts us, x = Variant ts /\ y = Variant us /\ ts <> us
  end.
Proof.
  intros Px Py. destruct x as [a|ts], y as [b|us]; cbn [concatenation_type].
  - destruct (Nat.eqb_spec a b) as [->|Hne].
    + split; [exact Px|]. split; [intros t; tauto|split; reflexivity].
    + split; [|split; [intros t; cbn; tauto|exact I]]. repeat constructor; cbn; intuition congruence.
  - destruct (is_in_variant a us) eqn:E.
    + apply is_in_spec in E. split; [exact Py|]. split; [|exact I]. intros t; cbn. split; [tauto|]. intros [[<-|[]]|H]; assumption.
    + apply is_in_false in E. split; [|split; [intros t; cbn; tauto|exact I]]. constructor; assumption.
  - destruct (is_in_variant b ts) eqn:E.
    + apply is_in_spec in E. split; [exact Px|]. split; [|exact I]. intros t; cbn. split; [tauto|]. intros [H|[<-|[]]]; assumption.
    + apply is_in_false in E. split; [|split; [intros t; cbn; rewrite in_app_iff; cbn; tauto|exact I]].
      unfold proper in *. cbn [types_of] in *. clear - Px E. induction ts as [|u ts IH]; cbn; [repeat constructor; intros []|].
      inversion Px as [|? ? H1 H2]; subst. constructor.
      * rewrite in_app_iff. cbn. intros [H|[->|[]]]; [exact (H1 H)|]. apply E. left. reflexivity.
      * apply IH; [exact H2|]. intros H. apply E. right. exact H.
  - destruct (list_eq_dec Nat.eq_dec ts us) as [->|Hne].
    + split; [exact Px|]. split; [intros t; tauto|exact I].
    + eauto.
Qed.

Lemma concatenate_spec {V} x (xs : list (value V)) y ys : proper x -> proper y -> Forall (typed x) xs -> Forall (typed y) ys ->
  match concatenation_type x y with
  | Some out => exists zs, concatenate x xs y ys = Some (out, zs) /\ Forall (typed out) zs /\ contents out zs = contents x xs ++ contents y ys
  | None => concatenate x xs y ys = None
  end.
Proof.
  intros Px Py Fx Fy. pose proof (concatenation_type_spec x y Px Py) as S.
  destruct (concatenation_type x y) as [out|] eqn:E.
  - destruct S as (Po & Hin & Hpl).
    assert (G : exists l r, convert_all (value_to x out) xs = Some l /\ convert_all (value_to y out) ys = Some r /\
       Forall (typed out) (l ++ r) /\ contents out (l ++ r) = contents x xs ++ contents y ys).
    { destruct (convert_all_spec x out xs) as (l & El & Tl & Cl); [intros t Ht; apply Hin; tauto|destruct out; [apply Hpl|exact I]|exact Fx|].
      destruct (convert_all_spec y out ys) as (r & Er & Tr & Cr); [intros t Ht; apply Hin; tauto|destruct out; [apply Hpl|exact I]|exact Fy|].
      exists l, r. split; [exact El|]. split; [exact Er|]. split; [apply Forall_app; split; assumption|].
      unfold contents in *. rewrite map_app, Cl, Cr. reflexivity. }
    destruct G as (l & r & El & Er & T & C).
    destruct x as [a|ts], y as [b|us]; unfold concatenate; try solve [rewrite E, El, Er; exists (l ++ r); auto].
    + destruct (Nat.eqb_spec a b) as [->|Hne].
      * cbn [concatenation_type] in E. rewrite Nat.eqb_refl in E. injection E as <-. exists (xs ++ ys). split; [reflexivity|].
        split; [apply Forall_app; split; assumption|]. unfold contents. rewrite map_app. reflexivity.
      * rewrite E, El, Er. exists (l ++ r). auto.
    + cbn [concatenation_type] in E. destruct (list_eq_dec Nat.eq_dec ts us) as [->|Hne]; [|discriminate].
      injection E as <-. exists (xs ++ ys). split; [reflexivity|].
      split; [apply Forall_app; split; assumption|]. unfold contents. rewrite map_app. reflexivity.
  - destruct S as (ts & us & -> & -> & Hne). cbn. destruct (list_eq_dec Nat.eq_dec ts us); [contradiction|reflexivity].
Qed.

Lemma concatenate_list_spec {V} (all_xs : list (list V)) : concatenate_list all_xs = concat all_xs.
Proof.
  unfold concatenate_list. assert (G : forall acc, fold_left (fun features one => features ++ one) all_xs acc = acc ++ concat all_xs).
  { induction all_xs as [|x l IH]; intros acc; cbn [fold_left concat]; [rewrite app_nil_r; reflexivity|]. rewrite IH, app_assoc. reflexivity. }
  apply (G []).
Qed.

Lemma to_variant_spec {V} ts x (xs : list (value V)) : Forall (typed x) xs ->
  if forallb (fun t => is_in_variant t ts) (types_of x)
  then exists ys, to_variant_vector ts x xs = Some ys /\ Forall (typed (Variant ts)) ys /\ contents (Variant ts) ys = contents x xs
  else to_variant_vector ts x xs = None.
Proof.
  intros Fx. destruct (forallb (fun t => is_in_variant t ts) (types_of x)) eqn:E.
  - assert (Hi : incl (types_of x) ts) by (apply is_sub_spec; exact E).
    destruct (convert_all_spec x (Variant ts) xs Hi I Fx) as (ys & E' & T & C). exists ys. split; [|auto].
    unfold to_variant_vector. destruct x as [t|us].
    + cbn in E. rewrite Bool.andb_true_r in E. rewrite E. exact E'.
    + unfold is_sub_variant. cbn in E. rewrite E. exact E'.
  - unfold to_variant_vector. destruct x as [t|us].
    + cbn in E. rewrite Bool.andb_true_r in E. rewrite E. reflexivity.
    + unfold is_sub_variant. cbn in E. rewrite E. reflexivity.
Qed.

Lemma match_typed {V} ts (x : value V) : typed (Variant ts) x -> exists t v, match_value ts x = Some (t, v) /\ content (Variant ts) x = Some (t, v).
Proof.
  destruct x as [|i v]; [intros []|]. cbn. intros H. destruct (nth_error ts i) as [t|] eqn:E; [|apply nth_error_None in E; lia].
  exists t, v. auto.
Qed.

Lemma extract_loop_spec {V} t ts (xs : list (value V)) : Forall (typed (Variant ts)) xs ->
  extract_loop t ts xs = Some (of_type t (contents (Variant ts) xs)).
Proof.
  induction xs as [|x xs IH]; intros F; [reflexivity|]. inversion F as [|? ? H1 H2]; subst.
  destruct (match_typed ts x H1) as (u & v & M & C). cbn [extract_loop]. rewrite M, (IH H2).
  unfold contents, of_type. cbn [map flat_map]. rewrite C, Nat.eqb_sym. destruct (Nat.eqb u t); reflexivity.
Qed.

Lemma extract_indices_spec {V W} t ts (xs : list (value V)) : Forall (typed (Variant ts)) xs ->
  forall i, exists idx, extract_indices t ts xs i = Some idx /\
  forall (pre ws : list W), length pre = i -> length ws = length xs ->
    mapM (checked_get (pre ++ ws)) idx = Ok (at_type t (contents (Variant ts) xs) ws).
Proof.
  induction xs as [|x xs IH]; intros F i.
  - exists []. split; [reflexivity|]. intros; reflexivity.
  - inversion F as [|? ? H1 H2]; subst. destruct (match_typed ts x H1) as (u & v & M & C).
    destruct (IH H2 (S i)) as (idx & E & G). cbn [extract_indices]. rewrite M, E. eexists. split; [reflexivity|].
    intros pre ws Hp Hw. destruct ws as [|w ws]; [discriminate|].
    assert (G' : mapM (checked_get (pre ++ w :: ws)) idx = Ok (at_type t (contents (Variant ts) xs) ws)).
    { replace (pre ++ w :: ws) with ((pre ++ [w]) ++ ws) by (rewrite <- app_assoc; reflexivity).
      apply G; [rewrite app_length; cbn; lia|cbn in Hw; lia]. }
    unfold at_type, contents in *. cbn [map combine flat_map fst snd]. rewrite C. rewrite Nat.eqb_sym. destruct (Nat.eqb u t); [|exact G'].
    cbn [mapM]. unfold checked_get at 1. rewrite nth_error_app2 by lia. rewrite Hp, Nat.sub_diag. cbn. rewrite G'. reflexivity.
Qed.

Lemma at_type_length {V W} t (cs : list (option (nat * V))) : forall (ws : list W), length ws = length cs ->
  length (at_type t cs ws) = length (of_type t cs).
Proof.
  induction cs as [|c cs IH]; intros [|w ws] H; try discriminate; [reflexivity|].
  unfold at_type, of_type in *. cbn [combine flat_map fst snd]. rewrite !app_length, IH by (cbn in H; lia). f_equal.
  destruct c as [[u v]|]; [destruct (Nat.eqb u t)|]; reflexivity.
Qed.

Lemma extract_dataset_spec {V D} t ts (d : dataset (value V) D) : Forall (typed (Variant ts)) (ds_features d) ->
  length (m_mean (ds_targets d)) = length (ds_features d) -> length (m_var (ds_targets d)) = length (ds_features d) ->
  let cs := contents (Variant ts) (ds_features d) in
  In t ts ->
  extract_dataset t ts d = Some (Ok (DS (of_type t cs) (Marg (at_type t cs (m_mean (ds_targets d))) (at_type t cs (m_var (ds_targets d)))) [])).
Proof.
  intros F L1 L2 cs Hin. unfold extract_dataset, extract_from_variants. rewrite (proj2 (is_in_spec t ts) Hin), extract_loop_spec by exact F.
  destruct (extract_indices_spec (W := D) t ts (ds_features d) F 0) as (idx & E & G). rewrite E.
  unfold marginal_subset, subset. pose proof (G [] (m_mean (ds_targets d)) eq_refl L1) as G1.
  pose proof (G [] (m_var (ds_targets d)) eq_refl L2) as G2. cbn [app] in G1, G2. rewrite G1. cbn [bind]. rewrite G2. cbn [bind]. unfold marginal_make.
  fold cs. assert (Hl : length cs = length (ds_features d)) by (unfold cs, contents; apply map_length).
  rewrite !at_type_length by congruence. rewrite Nat.eqb_refl. cbn [assert_then bind].
  unfold dataset_make, marginal_size. cbn [m_mean m_var]. rewrite !at_type_length by congruence. rewrite Nat.eqb_refl. cbn [assert_then bind].
  rewrite Nat.eqb_refl. reflexivity.
Qed.

Lemma of_type_app {V} t (a b : list (option (nat * V))) : of_type t (a ++ b) = of_type t a ++ of_type t b.
Proof. unfold of_type. apply flat_map_app. Qed.
Lemma of_type_plain {V} t (xs : list (value V)) : Forall (typed (Plain t)) xs -> of_type t (contents (Plain t) xs) = map value_of xs.
Proof.
  induction xs as [|x xs IH]; intros F; [reflexivity|]. inversion F as [|? ? H1 H2]; subst. destruct x as [v|]; [|contradiction].
  unfold of_type, contents in *. cbn [map flat_map content value_of]. rewrite Nat.eqb_refl. cbn. f_equal. exact (IH H2).
Qed.
Lemma of_type_other {V} t x (xs : list (value V)) : ~ In t (types_of x) -> Forall (typed x) xs -> of_type t (contents x xs) = [].
Proof.
  intros Hn. induction xs as [|v xs IH]; intros F; [reflexivity|]. inversion F as [|? ? H1 H2]; subst.
  unfold of_type, contents in *. cbn [map flat_map]. rewrite (IH H2), app_nil_r.
  destruct x as [u|us], v as [v|i v]; try contradiction; cbn [content].
  - destruct (Nat.eqb_spec u t) as [->|]; [|reflexivity]. exfalso. apply Hn. left. reflexivity.
  - destruct (nth_error us i) as [u|] eqn:E; [|reflexivity]. destruct (Nat.eqb_spec u t) as [->|]; [|reflexivity].
    exfalso. apply Hn. eapply nth_error_In. exact E.
Qed.
