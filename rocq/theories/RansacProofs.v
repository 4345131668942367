From Coq Require Import Permutation.
From Verif Require Import Base BaseProofs StdMapModel StdMapProofs IndexingModel IndexingProofs DatasetModel DatasetSpec DatasetProofs MapUtilsModel MapUtilsProofs
  RandomModel RandomProofs DoubleModel RansacModel RansacSpec.

Section P.
Context {K : Type} `{OrdKey K} {F G : Type}.
Variables (fitter : list K -> F) (inlier_metric : K -> F -> dbl)
  (consensus_metric : list K -> dbl) (is_valid_candidate : list K -> bool)
  (uniform : Z -> Z -> G -> Z * G).
Hypothesis Hu : forall lo hi g, (lo <= hi)%Z -> (lo <= fst (uniform lo hi g) <= hi)%Z.
Variables (groups : list K) (threshold : dbl) (n minc : nat).
Hypothesis Hsize : (Z.of_nat (length groups) < 2 ^ 64)%Z.
Hypothesis Hn : 0 < n.
Hypothesis Hng : n <= length groups.

Notation drawn := (drawn groups n).
Notation classified := (classified fitter inlier_metric groups threshold).
Notation evaluated := (evaluated fitter inlier_metric consensus_metric is_valid_candidate groups threshold n minc).
Notation rejected := (rejected is_valid_candidate groups n).
Notation is_best := (is_best fitter inlier_metric consensus_metric is_valid_candidate groups threshold n minc).

Lemma vcontains_In (l : list K) k : vector_contains keqb l k = true <-> In k l.
Proof.
  apply vector_contains_spec. intros a b. destruct (keqb_spec a b); split; congruence.
Qed.

Lemma classify_spec cands fit (gs : list K) :
  let r := fold_left (classify_step inlier_metric cands fit threshold) gs ([], []) in
  wf_map (fst r) /\ wf_map (snd r) /\
  (forall k v, mfind k (fst r) = Some v <-> In k gs /\ ~ In k cands /\ v = inlier_metric k fit /\ dleb v threshold = true) /\
  (forall k v, mfind k (snd r) = Some v <-> In k gs /\ ~ In k cands /\ v = inlier_metric k fit /\ dleb v threshold = false).
Proof.
  induction gs as [|x gs IH] using rev_ind.
  - cbn. split; [constructor|]. split; [constructor|]. split; intros k v; (split; [discriminate|tauto]).
  - cbn zeta in *. rewrite fold_left_app. cbn [fold_left].
    destruct (fold_left (classify_step inlier_metric cands fit threshold) gs ([], [])) as [ins outs].
    cbn [fst snd] in IH. destruct IH as [Hw1 [Hw2 [Hi Ho]]].
    unfold classify_step. cbn [fst snd].
    assert (forall k, In k (gs ++ [x]) <-> In k gs \/ k = x) as Hin.
    { intros k. rewrite in_app_iff. cbn. split; intros [Hk|Hk]; auto. destruct Hk as [<-|[]]; auto. }
    destruct (vector_contains keqb cands x) eqn:Ec.
    + apply vcontains_In in Ec. cbn [fst snd]. split; [exact Hw1|]. split; [exact Hw2|].
      split; intros k v; [rewrite Hi|rewrite Ho]; rewrite Hin; split; try tauto;
        intros [[Hk|Hk] Hr]; try tauto; subst k; tauto.
    + assert (~ In x cands) as Hnc by (intros Hc; apply vcontains_In in Hc; congruence).
      destruct (dleb (inlier_metric x fit) threshold) eqn:El; cbn [fst snd].
      * split; [apply wf_memplace, Hw1|]. split; [exact Hw2|]. split.
        -- intros k v. rewrite mfind_memplace by exact Hw1. rewrite Hin.
           destruct (mfind k ins) as [w|] eqn:Ek.
           ++ apply Hi in Ek as Ek'. split.
              ** intros [= <-]. tauto.
              ** intros [_ [_ [-> _]]]. f_equal. tauto.
           ++ destruct (keqb_spec k x) as [->|Hkx].
              ** split; [intros [= <-]; tauto|]. intros [_ [_ [-> _]]]. reflexivity.
              ** rewrite <- Ek, Hi. tauto.
        -- intros k v. rewrite Ho, Hin. split; [tauto|]. intros [[Hk|Hk] [H1 [H2 H3]]]; [tauto|].
           subst. congruence.
      * split; [exact Hw1|]. split; [apply wf_memplace, Hw2|]. split.
        -- intros k v. rewrite Hi, Hin. split; [tauto|]. intros [[Hk|Hk] [H1 [H2 H3]]]; [tauto|].
           subst. congruence.
        -- intros k v. rewrite mfind_memplace by exact Hw2. rewrite Hin.
           destruct (mfind k outs) as [w|] eqn:Ek.
           ++ apply Ho in Ek as Ek'. split.
              ** intros [= <-]. tauto.
              ** intros [_ [_ [-> _]]]. f_equal. tauto.
           ++ destruct (keqb_spec k x) as [->|Hkx].
              ** split; [intros [= <-]; tauto|]. intros [_ [_ [-> _]]]. reflexivity.
              ** rewrite <- Ek, Ho. tauto.
Qed.

Definition best_inv (best : iteration K) (its : list (iteration K)) : Prop :=
  (best = empty_iteration /\ forall it, In it its -> evaluated it -> ~ enough minc it) \/ is_best best its.

Notation iters_ok := (iters_ok fitter inlier_metric consensus_metric is_valid_candidate groups threshold n minc).

Lemma metric_some_enough it m : evaluated it -> it_metric it = Some m -> enough minc it.
Proof.
  intros [_ [_ [_ [_ Hno]]]] Hm. unfold enough in *.
  destruct (le_lt_dec minc (length (consensus it))) as [Hl|Hl]; [exact Hl|].
  rewrite Hno in Hm; [discriminate|lia].
Qed.

Lemma best_inv_snoc_other best its it : best_inv best its ->
  (evaluated it -> ~ enough minc it) -> it_metric it = NaN ->
  best_inv best (its ++ [it]).
Proof.
  intros [[-> Hb]|[Hb1 [Hb2 [l1 [l2 [-> [H1 H2]]]]]]] Hn1 Hm; [left|right].
  - split; [reflexivity|]. intros x Hx. apply in_app_iff in Hx as [Hx|[<-|[]]]; auto.
  - split; [exact Hb1|]. split; [exact Hb2|]. exists l1, (l2 ++ [it]). rewrite <- app_assoc. split; [reflexivity|].
    split; [exact H1|]. intros x m' Hx Hxm. apply in_app_iff in Hx as [Hx|[<-|[]]]; [eauto|].
    rewrite Hm in Hxm. discriminate.
Qed.

Lemma best_inv_snoc best its it :
  Forall (fun x => evaluated x \/ rejected x) its ->
  best_inv best its -> evaluated it -> enough minc it ->
  best_inv (if disnan (it_metric best) || dltb (it_metric it) (it_metric best) then it else best) (its ++ [it]).
Proof.
  intros Hall Hb He Hen. rewrite Forall_forall in Hall.
  assert (forall x m', In x its -> it_metric x = Some m' -> exists m, it_metric best = Some m /\ (m <= m')%Z) as Hmin.
  { intros x m' Hx Hm. destruct Hb as [[-> Hb]|[Hb1 [Hb2 [l1 [l2 [-> [H1 H2]]]]]]].
    - exfalso. destruct (Hall x Hx) as [He'|[_ [_ [_ [_ Hr]]]]]; [|rewrite Hr in Hm; discriminate].
      apply (Hb x Hx He'). eapply metric_some_enough; eauto.
    - apply in_app_iff in Hx as [Hx|[<-|Hx]].
      + destruct (H1 _ _ Hx Hm) as [m [Hm1 Hm2]]. exists m. split; [exact Hm1|lia].
      + exists m'. split; [exact Hm|lia].
      + eauto. }
  destruct (disnan (it_metric best) || dltb (it_metric it) (it_metric best)) eqn:E; right.
  - split; [exact He|]. split; [exact Hen|]. exists its, []. split; [reflexivity|].
    split; [|intros x m' []]. intros x m' Hx Hm. destruct (Hmin x m' Hx Hm) as [m [Hm1 Hm2]].
    rewrite Hm1 in E. cbn in E. destruct (it_metric it) as [mi|]; [|discriminate]. cbn in E.
    exists mi. split; [reflexivity|lia].
  - apply Bool.orb_false_iff in E as [E1 E2]. destruct (it_metric best) as [mb|] eqn:Emb; [|discriminate].
    destruct Hb as [[-> Hb]|[Hb1 [Hb2 [l1 [l2 [-> [H1 H2]]]]]]]; [discriminate|].
    split; [exact Hb1|]. split; [exact Hb2|]. exists l1, (l2 ++ [it]). rewrite <- app_assoc. split; [reflexivity|].
    rewrite Emb in *. split; [exact H1|]. intros x m' Hx Hm. apply in_app_iff in Hx as [Hx|[<-|[]]]; [eauto|].
    exists mb. split; [reflexivity|]. rewrite Hm in E2. cbn in E2. lia.
Qed.

Definition final_ok (maxi maxf : nat) (out : ransac_output K) : Prop :=
  let its := ro_iterations out in let best := ro_best out in
  match ro_code out with
  | RANSAC_SUCCESS => is_best best its /\ exists failed, iters_ok its maxi failed /\ (failed < maxf \/ failed = 0)
  | RANSAC_NO_CONSENSUS => best = empty_iteration /\ (forall it, In it its -> evaluated it -> ~ enough minc it) /\
      exists failed, iters_ok its maxi failed /\ (failed < maxf \/ failed = 0)
  | RANSAC_EXCEEDED_MAX_FAILED_CANDIDATES =>
      best_inv best its /\ exists i, i < maxi /\ iters_ok its i (Nat.max 1 maxf)
  | _ => False
  end.

Lemma iters_ok_all its i f : iters_ok its i f -> Forall (fun x => evaluated x \/ rejected x) its.
Proof.
  intros [ev [rj [Hp [He [Hr _]]]]]. apply Forall_forall. intros x Hx.
  apply (Permutation.Permutation_in _ Hp) in Hx. rewrite Forall_forall in He, Hr.
  apply in_app_iff in Hx as [Hx|Hx]; auto.
Qed.

Lemma iters_ok_ev its i f it : iters_ok its i f -> evaluated it -> iters_ok (its ++ [it]) (S i) f.
Proof.
  intros [ev [rj [Hp [He [Hr [H1 H2]]]]]] Hi. exists (it :: ev), rj. split.
  - cbn. eapply Permutation.Permutation_trans; [apply Permutation.Permutation_app_comm|]. cbn. constructor. exact Hp.
  - split; [constructor; auto|]. split; [exact Hr|]. cbn. split; congruence.
Qed.

Lemma iters_ok_rj its i f it : iters_ok its i f -> rejected it -> iters_ok (its ++ [it]) i (S f).
Proof.
  intros [ev [rj [Hp [He [Hr [H1 H2]]]]]] Hi. exists ev, (rj ++ [it]). split.
  - rewrite app_assoc. apply Permutation.Permutation_app_tail. exact Hp.
  - split; [exact He|]. split; [apply Forall_app; split; [exact Hr|constructor; auto]|]. rewrite app_length. cbn. split; lia.
Qed.

Lemma drawn_nonempty it : drawn it -> it_candidates it <> [].
Proof.
  intros [inds [_ [Hl Hs]]] E. rewrite E in Hs. apply subset_ok_iff in Hs as [Hl' _]. cbn in Hl'. lia.
Qed.

Lemma ransac_loop_spec dfuel maxi maxf fuel : forall i failed best its g,
  i <= maxi -> (failed < maxf \/ failed = 0) -> (maxi - i) + (maxf - failed) <= fuel ->
  iters_ok its i failed -> best_inv best its ->
  match ransac_loop fitter inlier_metric consensus_metric is_valid_candidate uniform fuel dfuel groups
          threshold n minc maxi maxf i failed best its g with
  | Some (Ok out) => final_ok maxi maxf out
  | Some _ => False
  | None => exists g', random_without_replacement uniform dfuel groups n g' = None
  end.
Proof.
  induction fuel as [|fuel IH]; intros i failed best its g Hi Hfl Hfuel Hits Hb; cbn [ransac_loop].
  - destruct (Nat.ltb_spec i maxi); [lia|]. assert (i = maxi) as -> by lia.
    unfold final_ok. cbn [ro_code ro_iterations ro_best]. destruct Hb as [[-> Hb]|Hb].
    + cbn. eauto.
    + destruct Hb as [Hb1 Hb2]. destruct (consensus best) as [|c cs] eqn:Ec.
      * exfalso. unfold consensus in Ec. apply app_eq_nil in Ec as [Ec _].
        apply (drawn_nonempty best (proj1 Hb1) Ec).
      * split; [split; assumption|eauto].
  - destruct (Nat.ltb_spec i maxi) as [Hlt|Hge].
    2:{ assert (i = maxi) as -> by lia.
    unfold final_ok. cbn [ro_code ro_iterations ro_best]. destruct Hb as [[-> Hb]|Hb].
    + cbn. eauto.
    + destruct Hb as [Hb1 Hb2]. destruct (consensus best) as [|c cs] eqn:Ec.
      * exfalso. unfold consensus in Ec. apply app_eq_nil in Ec as [Ec _].
        apply (drawn_nonempty best (proj1 Hb1) Ec).
      * split; [split; assumption|eauto]. }
    destruct (random_without_replacement uniform dfuel groups n g) as [r|] eqn:Er; [|eauto].
    apply random_without_replacement_spec in Er; [|exact Hu|exact Hsize].
    destruct Er as [[_ [cands [g' [inds [-> [Hs [Hl Hsub]]]]]]]|[Hlt' _]]; [|lia].
    assert (forall a b c, drawn (It cands a b c)) as Hdr by (intros; exists inds; auto).
    destruct (is_valid_candidate cands) eqn:Ev; cbn [negb].
    + unfold classify. pose proof (classify_spec cands (fitter cands) groups) as Hcl. cbn zeta in Hcl.
      destruct (fold_left (classify_step inlier_metric cands (fitter cands) threshold) groups ([], [])) as [ins outs].
      cbn [fst snd] in Hcl.
      set (it0 := It cands ins outs NaN) in *.
      set (it' := if minc <=? length (consensus it0)
                  then It cands ins outs (consensus_metric (consensus it0)) else it0).
      assert (consensus it' = consensus it0) as Hcons by (unfold it'; destruct (minc <=? length (consensus it0)); reflexivity).
      assert (evaluated it') as He.
      { unfold RansacSpec.evaluated, enough. rewrite Hcons. split; [|split; [|split]].
        - unfold it'. destruct (minc <=? length (consensus it0)); apply Hdr.
        - unfold it'. destruct (minc <=? length (consensus it0)); exact Ev.
        - unfold it'. destruct (minc <=? length (consensus it0)); exact Hcl.
        - unfold it'. destruct (Nat.leb_spec minc (length (consensus it0))); split; try lia; reflexivity. }
      apply IH; [lia|exact Hfl|lia|apply iters_ok_ev; assumption|].
      destruct (Nat.leb_spec minc (length (consensus it0))) as [Hen|Hen].
      * apply best_inv_snoc; [eapply iters_ok_all; eauto|exact Hb|exact He|]. unfold enough. rewrite Hcons. exact Hen.
      * apply best_inv_snoc_other; [exact Hb| |].
        -- intros _. unfold enough. rewrite Hcons. lia.
        -- unfold it'. destruct (Nat.leb_spec minc (length (consensus it0))); [lia|reflexivity].
    + assert (rejected (It cands [] [] NaN)) as Hrj by (split; [apply Hdr|]; auto).
      assert (best_inv best (its ++ [It cands [] [] NaN])) as Hb'.
      { apply best_inv_snoc_other; [exact Hb| |reflexivity]. intros [_ [Hv _]]. cbn in Hv. congruence. }
      destruct (Nat.leb_spec maxf (S failed)) as [Hmx|Hmx].
      * unfold final_ok. cbn [ro_code ro_iterations ro_best]. split; [exact Hb'|].
        exists i. split; [exact Hlt|]. replace (Nat.max 1 maxf) with (S failed) by lia. apply iters_ok_rj; assumption.
      * apply IH; [lia|lia|lia|apply iters_ok_rj; assumption|exact Hb'].
Qed.
End P.

Lemma ransac_spec {K} `{OrdKey K} {F G} (fitter : list K -> F) inlier_metric consensus_metric is_valid
  (uniform : Z -> Z -> G -> Z * G) dfuel groups threshold n minc maxi maxf g :
  (forall lo hi g, (lo <= hi)%Z -> (lo <= fst (uniform lo hi g) <= hi)%Z) ->
  (Z.of_nat (length groups) < 2 ^ 64)%Z ->
  match ransac fitter inlier_metric consensus_metric is_valid uniform dfuel groups threshold n minc maxi maxf g with
  | Some (Ok out) =>
      if (length groups <=? minc) || (minc <? n) || (length groups <=? n) || (n =? 0) || (maxi =? 0)
      then out = RO RANSAC_INVALID_ARGUMENTS empty_iteration []
      else final_ok fitter inlier_metric consensus_metric is_valid groups threshold n minc maxi maxf out
  | Some _ => False
  | None => exists g', random_without_replacement uniform dfuel groups n g' = None
  end.
Proof.
  intros Hu Hsz. unfold ransac.
  destruct ((length groups <=? minc) || (minc <? n) || (length groups <=? n) || (n =? 0) || (maxi =? 0)) eqn:E; [reflexivity|].
  apply Bool.orb_false_iff in E as [E E5]. apply Bool.orb_false_iff in E as [E E4].
  apply Bool.orb_false_iff in E as [E E3]. apply Bool.orb_false_iff in E as [E1 E2].
  apply Nat.leb_gt in E1, E3. apply Nat.ltb_ge in E2. apply Nat.eqb_neq in E4, E5.
  apply ransac_loop_spec; auto; try lia.
  - exists [], []. cbn. repeat split; constructor.
  - left. split; [reflexivity|]. intros it [].
Qed.

(* the partition of the groups *)
Lemma evaluated_partition {K} `{OrdKey K} {F} (fitter : list K -> F) im cm iv groups thr n minc it k :
  evaluated fitter im cm iv groups thr n minc it ->
  (In k groups <-> In k (it_candidates it) \/ mcontains k (it_inliers it) = true \/ mcontains k (it_outliers it) = true) /\
  ~ (In k (it_candidates it) /\ mcontains k (it_inliers it) = true) /\
  ~ (In k (it_candidates it) /\ mcontains k (it_outliers it) = true) /\
  ~ (mcontains k (it_inliers it) = true /\ mcontains k (it_outliers it) = true).
Proof.
  intros [[inds [_ [_ Hs]]] [_ [[_ [_ [Hi Ho]]] _]]].
  assert (In k (it_candidates it) -> In k groups) as Hc.
  { intros Hk. apply subset_ok_iff in Hs as [Hlen Hs].
    apply In_nth_error in Hk as [i Hk].
    destruct (nth_error inds i) as [j|] eqn:Ej.
    - destruct (Hs i j Ej) as [_ Hx]. rewrite Hk in Hx. eapply nth_error_In; eauto.
    - exfalso. apply nth_error_None in Ej. assert (i < length (it_candidates it)) by (apply nth_error_Some; congruence).
      lia. }
  assert (mcontains k (it_inliers it) = true <-> exists v, mfind k (it_inliers it) = Some v) as E1
    by (unfold mcontains; destruct (mfind k (it_inliers it)); split; eauto; try discriminate; intros [v [=]]).
  assert (mcontains k (it_outliers it) = true <-> exists v, mfind k (it_outliers it) = Some v) as E2
    by (unfold mcontains; destruct (mfind k (it_outliers it)); split; eauto; try discriminate; intros [v [=]]).
  rewrite E1, E2. split; [split|split; [|split]].
  - intros Hk. destruct (in_dec keq_dec k (it_candidates it)) as [Hkc|Hkc]; [auto|]. right.
    destruct (dleb (im k (fitter (it_candidates it))) thr) eqn:El; [left|right]; eexists; [apply Hi|apply Ho]; eauto.
  - intros [Hk|[[v Hv]|[v Hv]]]; [auto|apply Hi in Hv; tauto|apply Ho in Hv; tauto].
  - intros [Hk [v Hv]]. apply Hi in Hv. tauto.
  - intros [Hk [v Hv]]. apply Ho in Hv. tauto.
  - intros [[v Hv] [w Hw]]. apply Hi in Hv as [_ [_ [-> Hv]]]. apply Ho in Hw as [_ [_ [-> Hw]]]. congruence.
Qed.

Lemma subset_NoDup {A} (xs : list A) inds out : NoDup xs -> NoDup inds -> subset xs inds = Ok out -> NoDup out.
Proof.
  intros Hx Hi Hs. apply subset_ok_iff in Hs as [Hl Hs]. apply NoDup_nth_error. intros i j Hil E.
  rewrite Hl in Hil.
  destruct (nth_error inds i) as [a|] eqn:Ea; [|apply nth_error_None in Ea; lia].
  destruct (Hs i a Ea) as [Hla Ha].
  destruct (nth_error inds j) as [b|] eqn:Eb.
  - destruct (Hs j b Eb) as [Hlb Hb].
    assert (a = b) as ->.
    { apply (proj1 (NoDup_nth_error xs) Hx); [exact Hla|congruence]. }
    apply (proj1 (NoDup_nth_error inds) Hi); [lia|congruence].
  - exfalso. assert (j < length out) as Hj.
    { apply nth_error_Some. rewrite <- E. rewrite Ha. apply nth_error_Some. exact Hla. }
    apply nth_error_None in Eb. lia.
Qed.

Lemma evaluated_consensus_NoDup {K} `{OrdKey K} {F} (fitter : list K -> F) im cm iv groups thr n minc it :
  NoDup groups -> evaluated fitter im cm iv groups thr n minc it -> NoDup (consensus it).
Proof.
  intros Hg He. pose proof He as [[inds [Hs1 [_ Hs]]] [_ [[Hw [_ [Hi Ho]]] _]]].
  unfold consensus. apply NoDup_app_intro.
  - eapply subset_NoDup; [exact Hg|apply SSorted_lt_NoDup, Hs1|exact Hs].
  - apply wf_NoDup, Hw.
  - intros k Hk Hin. destruct (evaluated_partition _ _ _ _ _ _ _ _ it k He) as [_ [Hn _]]. apply Hn. split; [exact Hk|].
    apply mcontains_spec; assumption.
Qed.

(* equality *)
Lemma list_eqb_spec {A} (eqb : A -> A -> bool) (R : A -> A -> Prop) x y :
  (forall a b, eqb a b = true <-> R a b) -> (list_eqb eqb x y = true <-> Forall2 R x y).
Proof.
  intros He. revert y. induction x as [|a x IH]; destruct y as [|b y]; cbn.
  - split; [constructor|reflexivity].
  - split; [discriminate|intros Hf; inversion Hf].
  - split; [discriminate|intros Hf; inversion Hf].
  - rewrite Bool.andb_true_iff, He, IH. split; [intros [H1 H2]; constructor; auto|].
    intros Hf. inversion Hf; subst; auto.
Qed.

Lemma Forall2_eq_iff {A} (R : A -> A -> Prop) (P : A -> Prop) x y : (forall a b, R a b <-> a = b /\ P a) ->
  (Forall2 R x y <-> x = y /\ Forall P x).
Proof.
  intros HR. split.
  - induction 1 as [|a b x y Hab Hxy [-> IH]]; [split; [reflexivity|constructor]|].
    apply HR in Hab as [-> HP]. split; [reflexivity|constructor; auto].
  - intros [<- HP]. induction HP as [|a x Ha Hx IH]; constructor; [apply HR; auto|exact IH].
Qed.

Lemma iteration_eqb_spec {K} `{OrdKey K} (a b : iteration K) : iteration_eqb a b = true <->
  a = b /\ Forall (fun kv => snd kv <> NaN) (it_inliers a) /\ Forall (fun kv => snd kv <> NaN) (it_outliers a).
Proof.
  unfold iteration_eqb. rewrite !Bool.andb_true_iff.
  rewrite (list_eqb_spec keqb eq) by (intros x y; destruct (keqb_spec x y); split; congruence).
  assert (forall x y : K * dbl, entry_eqb x y = true <-> x = y /\ snd x <> NaN) as He.
  { intros [k u] [k' v]. unfold entry_eqb. cbn. rewrite Bool.andb_true_iff.
    destruct (keqb_spec k k') as [->|Hk].
    - destruct u as [u|]; destruct v as [v|]; cbn.
      + rewrite Z.eqb_eq. split; [intros [_ ->]; split; [reflexivity|discriminate]|]. intros [[= ->] _]. auto.
      + split; [intros [_ [=]]|intros [[=] _]].
      + split; [intros [_ [=]]|intros [[=] _]].
      + split; [intros [_ [=]]|intros [_ Hc]; contradiction].
    - split; [intros [[=] _]|]. intros [[= E _] _]. contradiction. }
  rewrite !(list_eqb_spec entry_eqb (fun x y => x = y /\ snd x <> NaN)) by exact He.
  rewrite !(Forall2_eq_iff (fun x y => x = y /\ snd x <> NaN) (fun x => snd x <> NaN)) by (intros; reflexivity).
  rewrite (Forall2_eq_iff eq (fun _ => True)) by (intros; intuition).
  destruct a as [c1 i1 o1 m1], b as [c2 i2 o2 m2]. cbn.
  assert ((disnan m1 && disnan m2 || deqb m1 m2 = true) <-> m1 = m2) as Hm.
  { destruct m1 as [x|]; destruct m2 as [y|]; cbn; try (split; congruence).
    rewrite Z.eqb_eq. split; congruence. }
  rewrite Hm. split.
  - intros [[[[-> _] [-> Hi]] [-> Ho]] ->]. auto.
  - intros [[= -> -> -> ->] [Hi Ho]]. repeat split; auto. apply Forall_forall. auto.
Qed.

Lemma rc_eqb_spec a b : rc_eqb a b = true <-> a = b.
Proof. destruct a, b; cbn; split; congruence. Qed.

Definition metrics_present {K} (it : iteration K) : Prop :=
  Forall (fun kv => snd kv <> NaN) (it_inliers it) /\ Forall (fun kv => snd kv <> NaN) (it_outliers it).

Lemma output_eqb_spec {K} `{OrdKey K} (a b : ransac_output K) : output_eqb a b = true <->
  ro_code a = ro_code b /\ ro_iterations a = ro_iterations b /\
  Forall metrics_present (ro_iterations a) /\ metrics_present (ro_best a).
Proof.
  unfold output_eqb. rewrite !Bool.andb_true_iff, rc_eqb_spec, iteration_eqb_spec.
  rewrite (list_eqb_spec iteration_eqb (fun x y => x = y /\ metrics_present x)) by (intros; apply iteration_eqb_spec).
  rewrite (Forall2_eq_iff _ metrics_present) by (intros; reflexivity). unfold metrics_present. tauto.
Qed.

(* the fit uses exactly the rows of the consensus *)
Lemma ransac_fit_spec {K} `{OrdKey K} {X D M} (fit : dataset X D -> M) (indexer : smap K (list nat)) d out r :
  ransac_fit fit indexer d out = Ok r ->
  (ro_code out <> RANSAC_SUCCESS /\ r = None) \/
  (ro_code out = RANSAC_SUCCESS /\ exists ls sub,
     Forall2 (fun k l => mfind k indexer = Some l) (consensus (ro_best out)) ls /\
     dataset_subset d (concat ls) = Ok sub /\ r = Some (fit sub)).
Proof.
  unfold ransac_fit. destruct (ro_code out) eqn:Ec; try (intros [= <-]; left; split; [discriminate|reflexivity]).
  intros E. right. split; [reflexivity|].
  destruct (indices_from_groups indexer (consensus (ro_best out))) as [inds| | |] eqn:Ei; try discriminate.
  cbn [bind] in E. destruct (dataset_subset d inds) as [sub| | |] eqn:Es; try discriminate.
  cbn [bind] in E. injection E as <-. apply indices_from_groups_spec in Ei as [ls [Hls ->]].
  exists ls, sub. auto.
Qed.
