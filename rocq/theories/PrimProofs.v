From Verif Require Import Base BaseProofs StdMapModel StdMapProofs RandomModel MstModel MstSpec MstGraph MstProofs.

Section P.
Context {V : Type} `{OrdKey V}.
Implicit Types es T q : list (edge V).

Lemma flip_flip (e : edge V) : flip (flip e) = e.
Proof. destruct e; reflexivity. Qed.

(* ---- the adjacency map ---- *)
Definition adj_has (m : smap V (list (edge V))) (x : V) (f : edge V) : Prop :=
  exists es, mfind x m = Some es /\ In f es.

Lemma wf_construct_or_push m k e : wf_map m -> wf_map (@construct_or_push V _ m k e).
Proof. intros Hm. unfold construct_or_push. destruct (mfind k m); apply wf_massign, Hm. Qed.

Lemma construct_or_push_has m k e x f : wf_map m ->
  (adj_has (construct_or_push m k e) x f <-> adj_has m x f \/ (x = k /\ f = e)).
Proof.
  intros Hm. unfold adj_has, construct_or_push. destruct (mfind k m) as [es|] eqn:E.
  - destruct (keq_dec x k) as [->|Hne].
    + rewrite mfind_massign_eq by exact Hm. rewrite E. split.
      * intros [es' [[= <-] Hi]]. apply in_app_iff in Hi as [Hi|[<-|[]]]; [left; eauto|right; auto].
      * intros [[es' [[= <-] Hi]]|[_ ->]]; eexists; (split; [reflexivity|]); apply in_app_iff; cbn; auto.
    + rewrite mfind_massign_neq by assumption. tauto.
  - destruct (keq_dec x k) as [->|Hne].
    + rewrite mfind_massign_eq by exact Hm. rewrite E. split.
      * intros [es' [[= <-] [<-|[]]]]. right; auto.
      * intros [[es' [[=] Hi]]|[_ ->]]. exists [e]. split; [reflexivity|left; reflexivity].
    + rewrite mfind_massign_neq by assumption. tauto.
Qed.

Lemma adjacency_spec (g : graph V) : wf_map (adjacency_map g) /\
  forall x f, adj_has (adjacency_map g) x f <-> ea f = x /\ (In f (g_edges g) \/ In (flip f) (g_edges g)).
Proof.
  unfold adjacency_map. induction (g_edges g) as [|e es [IHw IH]] using rev_ind.
  - cbn. split; [constructor|]. intros x f. unfold adj_has. cbn. firstorder congruence.
  - rewrite fold_left_app. cbn [fold_left].
    match type of IHw with wf_map ?e => set (m := e) in * end. split; [apply wf_construct_or_push, wf_construct_or_push, IHw|].
    intros x f. rewrite construct_or_push_has by (apply wf_construct_or_push, IHw).
    rewrite construct_or_push_has by exact IHw. rewrite IH, !in_app_iff. cbn [In]. split.
    + intros [[[Hx Hi]|[-> ->]]|[-> ->]]; [tauto|tauto|]. cbn. rewrite flip_flip. tauto.
    + intros [Hx [[Hi|[->|[]]]|[Hi|[Hi|[]]]]]; auto. right. rewrite Hi. cbn. rewrite flip_flip. auto.
Qed.

(* ---- degrees still to be queued ---- *)
Definition pending (adj : smap V (list (edge V))) (vs : list V) : nat :=
  list_sum (map (fun kv => if smem (fst kv) vs then 0 else length (snd kv)) adj).

Lemma pending_le adj vs vs' : incl vs vs' -> pending adj vs' <= pending adj vs.
Proof.
  intros Hi. unfold pending, list_sum. induction adj as [|[k es] adj IH]; cbn; [lia|].
  destruct (smem k vs) eqn:E.
  - apply smem_spec in E. assert (smem k vs' = true) as -> by (apply smem_spec, Hi, E). cbn. exact IH.
  - destruct (smem k vs'); cbn; lia.
Qed.

Lemma pending_visit adj vs vs' z es : incl vs vs' -> In z vs' -> ~ In z vs -> In (z, es) adj ->
  pending adj vs' + length es <= pending adj vs.
Proof.
  intros Hi Hz Hz'. unfold pending, list_sum. induction adj as [|[k es0] adj IH]; cbn; [intros []|].
  intros [[= -> ->]|Hin].
  - assert (smem z vs' = true) as -> by (apply smem_spec; exact Hz).
    destruct (smem z vs) eqn:E; [apply smem_spec in E; contradiction|].
    pose proof (pending_le adj vs vs' Hi) as Hp. unfold pending, list_sum in Hp. cbn. lia.
  - specialize (IH Hin). destruct (smem k vs) eqn:E.
    + apply smem_spec in E. assert (smem k vs' = true) as -> by (apply smem_spec, Hi, E). cbn. exact IH.
    + destruct (smem k vs'); cbn; lia.
Qed.

Lemma filter_le {A} (p : A -> bool) (l : list A) : length (filter p l) <= length l.
Proof. induction l as [|a l IH]; cbn; [lia|]. destruct (p a); cbn; lia. Qed.

Lemma from_mono t t' T T' : (t' <= t)%Z -> incl T T' -> forall u v : V, conn (from t T) u v -> conn (from t' T') u v.
Proof.
  intros Ht Hi u v. apply conn_incl. intros x Hx. apply filter_In in Hx as [Hx Hc]. apply filter_In.
  split; [apply Hi, Hx|lia].
Qed.

Section Run.
Variable pop : list (edge V) -> option (edge V * list (edge V)).
Hypothesis Hpop : pop_contract pop.
Variable g : graph V.
Hypothesis Hwf : wf_graph g.
Hypothesis Hns : no_self_loops g.
Variable s : V.
Notation G := (g_edges g).
Notation adj := (adjacency_map g).

Definition adj_edge (f : edge V) := In f G \/ In (flip f) G.

Lemma adj_edge_flip f : adj_edge f -> adj_edge (flip f).
Proof. unfold adj_edge. rewrite flip_flip. tauto. Qed.

Lemma adj_edge_ends f : adj_edge f -> ea f <> eb f.
Proof. intros [Hf|Hf]; [apply Hns, Hf|]. intros E. apply (Hns _ Hf). cbn. congruence. Qed.

Lemma adj_edge_vertices f : adj_edge f -> In (ea f) (g_vertices g) /\ In (eb f) (g_vertices g).
Proof. intros [Hf|Hf]; apply (proj2 Hwf) in Hf; cbn in Hf; tauto. Qed.

Definition vis T : list V := s :: map eb T.

Record inv (T : list (edge V)) (vs : list V) (q : list (edge V)) : Prop := {
  i_adj : forall e, In e T -> adj_edge e;
  i_nodup : NoDup (vis T);
  i_vs : forall v, In v vs <-> (T <> [] /\ In v (vis T));
  i_compute : vs = compute_vertices T;
  i_conn : forall v, In v (vis T) -> conn T s v;
  i_ea : forall e, In e T -> In (ea e) (vis T);
  i_forest : forest T;
  i_sound : forall f, In f q -> adj_edge f /\ In (ea f) (vis T);
  i_complete : forall f, adj_edge f -> In (ea f) (vis T) -> ~ In (eb f) (vis T) -> In f q;
  i_bottle : forall l1 x l2 f z, vis T = l1 ++ x :: l2 -> adj_edge f -> ea f = x -> ~ In (eb f) (vis T) ->
      In z l2 -> conn (from (ecost f) T) x z;
  i_done : forall f, adj_edge f -> In (ea f) (vis T) -> In (eb f) (vis T) -> conn (from (ecost f) T) (ea f) (eb f)
}.

Lemma vis_snoc T e : vis (T ++ [e]) = vis T ++ [eb e].
Proof. unfold vis. rewrite map_app. reflexivity. Qed.

Lemma inv_skip T vs q q' e : inv T vs q -> Permutation q (e :: q') -> In (eb e) (vis T) -> inv T vs q'.
Proof.
  intros I Hp He. destruct I. constructor; auto.
  - intros f Hf. apply i_sound0. eapply Permutation_in; [apply Permutation_sym, Hp|right; exact Hf].
  - intros f H1 H2 H3. specialize (i_complete0 f H1 H2 H3).
    apply (Permutation_in _ Hp) in i_complete0 as [<-|Hx]; [contradiction|exact Hx].
Qed.

Lemma inv_add T vs q q' e es : inv T vs q -> Permutation q (e :: q') ->
  (forall f, In f q -> edge_ltb e f = false) -> ~ In (eb e) vs -> mfind (eb e) adj = Some es ->
  let vs' := sinsert (eb e) (sinsert (ea e) vs) in
  inv (T ++ [e]) vs' (q' ++ filter (fun f => negb (smem (eb f) vs')) es).
Proof.
  intros I Hp Hmax Hnv Hes vs'. 
  assert (In e q) as Heq by (eapply Permutation_in; [apply Permutation_sym, Hp|left; reflexivity]).
  destruct (i_sound _ _ _ I e Heq) as [Hae Hwe].
  assert (~ In (eb e) (vis T)) as Hnz.
  { destruct T as [|t T'] eqn:ET.
    - cbn in *. destruct Hwe as [->|[]]. intros [E|[]]. apply (adj_edge_ends e Hae). congruence.
    - intros Hin. apply Hnv, (i_vs _ _ _ I). split; [discriminate|exact Hin]. }
  assert (forall v, In v vs' <-> In v (vis (T ++ [e]))) as Hvs'.
  { intros v. unfold vs'. rewrite !In_sinsert, vis_snoc, in_app_iff, (i_vs _ _ _ I). cbn [In].
    split.
    - intros [->|[->|[_ Hv]]]; auto.
    - intros [Hv|[->|[]]]; [|auto]. destruct T as [|t T'].
      + cbn in Hv, Hwe. destruct Hv as [<-|[]]. destruct Hwe as [->|[]]. auto.
      + right; right. split; [discriminate|exact Hv]. }
  assert (incl T (T ++ [e])) as Hinc by (intros x Hx; apply in_app_iff; auto).
  assert (In e (T ++ [e])) as HeT by (apply in_app_iff; right; left; reflexivity).
  (* the new vertex is joined to every pending vertex by large edges *)
  assert (forall f, adj_edge f -> In (ea f) (vis T) -> ~ In (eb f) (vis T) ->
          conn (from (ecost f) (T ++ [e])) (ea f) (eb e)) as Hkey.
  { intros f Hf Hfa Hfb. pose proof (i_complete _ _ _ I f Hf Hfa Hfb) as Hfq.
    pose proof (edge_ltb_cost _ _ (Hmax f Hfq)) as Hle.
    assert (conn (from (ecost f) (T ++ [e])) (ea e) (eb e)) as He.
    { apply conn_edge, filter_In. split; [exact HeT|lia]. }
    destruct (in_split _ _ Hfa) as [l1 [l2 El]].
    rewrite El in Hwe. apply in_app_iff in Hwe as [Hw|[Hw|Hw]].
    - destruct (in_split _ _ Hw) as [m1 [m2 Em]]. rewrite Em, <- app_assoc in El. cbn in El.
      eapply conn_trans; [|exact He]. apply conn_sym.
      eapply from_mono; [exact Hle|exact Hinc|].
      eapply (i_bottle _ _ _ I m1 (ea e) (m2 ++ ea f :: l2) e); auto. apply in_app_iff; right; left; reflexivity.
    - rewrite Hw. exact He.
    - eapply conn_trans; [|exact He]. eapply from_mono; [apply Z.le_refl|exact Hinc|].
      eapply (i_bottle _ _ _ I l1 (ea f) l2 f); auto. }
  constructor.
  - intros f Hf. apply in_app_iff in Hf as [Hf|[<-|[]]]; [apply (i_adj _ _ _ I), Hf|exact Hae].
  - rewrite vis_snoc. apply NoDup_app_intro; [apply (i_nodup _ _ _ I)|constructor; [intros []|constructor]|].
    intros x Hx [<-|[]]. contradiction.
  - intros v. rewrite Hvs'. split; [|tauto]. intros Hv. split; [destruct T; discriminate|exact Hv].
  - rewrite compute_vertices_snoc, <- (i_compute _ _ _ I). reflexivity.
  - intros v. rewrite vis_snoc, in_app_iff. intros [Hv|[<-|[]]].
    + eapply conn_incl; [exact Hinc|apply (i_conn _ _ _ I), Hv].
    + eapply conn_trans; [eapply conn_incl; [exact Hinc|apply (i_conn _ _ _ I), Hwe]|apply conn_edge, HeT].
  - intros f Hf. rewrite vis_snoc, in_app_iff. apply in_app_iff in Hf as [Hf|[<-|[]]]; [|auto].
    left. apply (i_ea _ _ _ I), Hf.
  - apply forest_snoc; [apply (i_forest _ _ _ I)|]. intros Hc. apply conn_sym in Hc.
    apply conn_isolated in Hc; [apply Hnz; rewrite Hc; exact Hwe|].
    intros f Hf. split; intros E; apply Hnz; rewrite <- E; [apply (i_ea _ _ _ I), Hf|right; apply in_map, Hf].
  - intros f Hf. rewrite vis_snoc, in_app_iff. apply in_app_iff in Hf as [Hf|Hf].
    + destruct (i_sound _ _ _ I f) as [H1 H2]; [|auto].
      eapply Permutation_in; [apply Permutation_sym, Hp|right; exact Hf].
    + apply filter_In in Hf as [Hf _].
      assert (adj_has adj (eb e) f) as Hh by (exists es; auto). apply adjacency_spec in Hh as [Hx Hg].
      split; [exact Hg|]. right; left. auto.
  - intros f Hf Hfa Hfb. rewrite vis_snoc, in_app_iff in Hfa. apply in_app_iff. destruct Hfa as [Hfa|[Hfa|[]]].
    + left. assert (In f q) as Hq.
      { apply (i_complete _ _ _ I); auto. intros Hx. apply Hfb. rewrite vis_snoc. apply in_app_iff; auto. }
      apply (Permutation_in _ Hp) in Hq as [<-|Hq]; [|exact Hq].
      exfalso. apply Hfb. rewrite vis_snoc. apply in_app_iff. right; left; reflexivity.
    + right. apply filter_In. split.
      * assert (adj_has adj (eb e) f) as [es' [E Hi]] by (apply adjacency_spec; split; [auto|exact Hf]).
        rewrite Hes in E. injection E as <-. exact Hi.
      * destruct (smem (eb f) vs') eqn:Em; [|reflexivity]. apply smem_spec, Hvs' in Em. contradiction.
  - intros l1 x l2 f z E Hf Hx Hfb Hz. rewrite vis_snoc in E, Hfb.
    destruct l2 as [|y l2] using rev_ind; [destruct Hz|]. clear IHl2.
    rewrite app_comm_cons, app_assoc in E. apply app_inj_tail in E as [E Ey]. subst y.
    assert (~ In (eb f) (vis T)) as Hfb' by (intros Hi; apply Hfb, in_app_iff; auto).
    apply in_app_iff in Hz as [Hz|[<-|[]]].
    + eapply from_mono; [apply Z.le_refl|exact Hinc|]. eapply (i_bottle _ _ _ I); eauto.
    + rewrite <- Hx. apply Hkey; auto. rewrite E, Hx. apply in_app_iff. right; left; reflexivity.
  - intros f Hf Hfa Hfb. rewrite vis_snoc, in_app_iff in Hfa, Hfb.
    destruct Hfa as [Hfa|[Hfa|[]]]; destruct Hfb as [Hfb|[Hfb|[]]].
    + eapply from_mono; [apply Z.le_refl|exact Hinc|]. apply (i_done _ _ _ I); auto.
    + rewrite <- Hfb. apply Hkey; auto. rewrite <- Hfb. exact Hnz.
    + rewrite <- Hfa. apply conn_sym. apply (Hkey (flip f)); [apply adj_edge_flip, Hf|exact Hfb|].
      cbn. rewrite <- Hfa. exact Hnz.
    + exfalso. apply (adj_edge_ends f Hf). congruence.
Qed.

Lemma prim_loop_spec fuel m : forall q out,
  inv (g_edges out) (g_vertices out) q -> length q + pending adj (g_vertices out) < fuel ->
  exists out' q', prim_loop pop fuel adj m q out = Some (Ok out') /\
    inv (g_edges out') (g_vertices out') q' /\ (q' = [] \/ (m <= Z.of_nat (length (g_edges out')))%Z).
Proof.
  induction fuel as [|fuel IH]; intros q out I Hfuel; [lia|]. cbn [prim_loop].
  pose proof (Hpop q) as Hq. destruct (pop q) as [[e q']|].
  - destruct Hq as [Hp Hmax]. pose proof (Permutation_length Hp) as Hl. cbn in Hl.
    destruct (Z.ltb_spec (Z.of_nat (length (g_edges out))) m).
    + unfold contains_vertex. destruct (smem (eb e) (g_vertices out)) eqn:Em.
      * apply smem_spec in Em. apply IH; [|lia]. eapply inv_skip; eauto. apply (i_vs _ _ _ I), Em.
      * assert (~ In (eb e) (g_vertices out)) as Hnv by (intros Hi; apply smem_spec in Hi; congruence).
        assert (In e q) as Heq by (eapply Permutation_in; [apply Permutation_sym, Hp|left; reflexivity]).
        destruct (i_sound _ _ _ I e Heq) as [Hae _].
        assert (adj_has adj (eb e) (flip e)) as [es [Ees _]].
        { apply adjacency_spec. split; [reflexivity|]. apply adj_edge_flip, Hae. }
        rewrite Ees. apply (IH _ (add_edge e out)).
        -- apply (inv_add _ _ q q' e es); auto.
        -- cbn [g_vertices add_edge].
           pose proof (pending_visit adj (g_vertices out) (sinsert (eb e) (sinsert (ea e) (g_vertices out))) (eb e) es) as Hpv.
           rewrite app_length. 
           pose proof (filter_le (fun f => negb (smem (eb f) (sinsert (eb e) (sinsert (ea e) (g_vertices out))))) es).
           assert (pending adj (sinsert (eb e) (sinsert (ea e) (g_vertices out))) + length es <= pending adj (g_vertices out)); [|lia].
           apply Hpv; [|apply In_sinsert; auto|exact Hnv|apply mfind_In_keys, Ees].
           intros x Hx. rewrite !In_sinsert. auto.
    + exists out, q. auto.
  - subst q. exists out, []. auto.
Qed.

Lemma inv_closed T vs : inv T vs [] -> forall v, conn G s v -> In v (vis T).
Proof.
  intros I. assert (forall x y, conn G x y -> (In x (vis T) <-> In y (vis T))) as Hc.
  { induction 1 as [x y [e [Hi [<- <-]]]| | |]; try tauto. split; intros Hx.
    - destruct (in_dec keq_dec (eb e) (vis T)) as [Hin|Hni]; [exact Hin|].
      exfalso. apply (i_complete _ _ _ I e); [left; exact Hi|exact Hx|exact Hni].
    - destruct (in_dec keq_dec (ea e) (vis T)) as [Hin|Hni]; [exact Hin|].
      exfalso. apply (i_complete _ _ _ I (flip e)); [apply adj_edge_flip; left; exact Hi|exact Hx|exact Hni]. }
  intros v Hv. apply (Hc s v Hv). left; reflexivity.
Qed.

Lemma conn_ends es u v : conn es u v -> u = v \/
  ((exists e, In e es /\ (u = ea e \/ u = eb e)) /\ (exists e, In e es /\ (v = ea e \/ v = eb e))).
Proof.
  induction 1 as [x y [e [Hi [<- <-]]]| |x y _ IH|x y z _ IH1 _ IH2]; auto.
  - right. split; exists e; auto.
  - destruct IH as [->|[H1 H2]]; auto.
  - destruct IH1 as [->|[H1 H2]]; [auto|]. destruct IH2 as [->|[H3 H4]]; auto.
Qed.

Lemma inv_full T vs q : inv T vs q -> In s (g_vertices g) ->
  length (g_vertices g) <= S (length T) -> forall v, conn G s v -> In v (vis T).
Proof.
  intros I Hs Hl v Hv.
  assert (incl (vis T) (g_vertices g)) as Hi.
  { intros x [<-|Hx]; [exact Hs|]. apply in_map_iff in Hx as [e [<- He]]. apply adj_edge_vertices, (i_adj _ _ _ I), He. }
  assert (incl (g_vertices g) (vis T)) as Hi'.
  { apply (NoDup_length_incl (i_nodup _ _ _ I)); [|exact Hi]. unfold vis. cbn. rewrite map_length. exact Hl. }
  apply conn_ends in Hv as [<-|[_ [e [He Hv]]]]; [left; reflexivity|].
  apply Hi'. apply (proj2 Hwf) in He. destruct Hv as [->| ->]; tauto.
Qed.

Lemma inv_init es : mfind s adj = Some es -> inv [] [] (filter (fun e => negb (contains_vertex empty_graph (eb e))) es).
Proof.
  intros Ees. constructor; cbn; try tauto.
  - constructor; [intros []|constructor].
  - intros v [<-|[]]. apply conn_refl.
  - intros l1 e l2 E. destruct l1; discriminate.
  - intros f Hf. apply filter_In in Hf as [Hf _]. assert (adj_has adj s f) as Hh by (exists es; auto).
    apply adjacency_spec in Hh as [<- Hg]. split; [exact Hg|auto].
  - intros f Hf [Hfa|[]] _. apply filter_In. split; [|reflexivity].
    assert (adj_has adj s f) as [es' [E Hi]] by (apply adjacency_spec; split; [auto|exact Hf]).
    rewrite Ees in E. injection E as <-. exact Hi.
  - intros l1 x l2 f z E _ _ _ Hz. destruct l1 as [|y l1]; [injection E as <- <-; destruct Hz|].
    injection E as _ E. destruct l1; discriminate.
  - intros f Hf [Ha|[]] [Hb|[]]. exfalso. apply (adj_edge_ends f Hf). congruence.
Qed.
End Run.

Lemma max_element_spec (es : list (edge V)) : forall e, In (max_element e es) (e :: es) /\
  forall f, In f (e :: es) -> (ecost f <= ecost (max_element e es))%Z.
Proof.
  unfold max_element. induction es as [|e' es IH]; intros e; cbn [fold_left].
  - split; [left; reflexivity|]. intros f [<-|[]]. lia.
  - destruct (IH (if edge_ltb e e' then e' else e)) as [H1 H2]. split.
    + destruct (edge_ltb e e'); destruct H1 as [H1|H1]; cbn; auto.
    + intros f Hf. assert (ecost e <= ecost (if edge_ltb e e' then e' else e))%Z as Ha.
      { destruct (edge_ltb e e') eqn:E; [|lia]. unfold edge_ltb in E. cbn in E.
        destruct (Z.compare_spec (ecost e) (ecost e')); try discriminate; lia. }
      assert (ecost e' <= ecost (if edge_ltb e e' then e' else e))%Z as Hb.
      { destruct (edge_ltb e e') eqn:E; [lia|]. apply edge_ltb_cost, E. }
      pose proof (H2 _ (or_introl eq_refl)) as Hc.
      destruct Hf as [<-|[<-|Hf]]; [lia|lia|]. apply H2. right; exact Hf.
Qed.

Lemma prim_spec pop (g : graph V) : pop_contract pop -> wf_graph g -> no_self_loops g ->
  (Z.of_nat (length (g_vertices g)) <= 2 ^ 64)%Z -> g_edges g <> [] ->
  exists out s m, maximum_spanning_tree pop g = Some (Ok out) /\
    In m (g_edges g) /\ ea m = s /\ (forall e, In e (g_edges g) -> (ecost e <= ecost m)%Z) /\
    edges_of (g_edges out) (g_edges g) /\ forest (g_edges out) /\
    g_vertices out = compute_vertices (g_edges out) /\
    (forall v, In v (g_vertices out) <-> conn (g_edges g) s v) /\
    (forall v, conn (g_edges g) s v <-> conn (g_edges out) s v) /\
    (forall e, edges_of [e] (g_edges g) -> conn (g_edges g) s (ea e) ->
       conn (from (ecost e) (g_edges out)) (ea e) (eb e)).
Proof.
  intros Hpop Hwf Hns Hsz Hne. unfold maximum_spanning_tree.
  destruct (g_edges g) as [|e0 es0] eqn:Eg; [contradiction|].
  set (m := max_element e0 es0). destruct (max_element_spec es0 e0) as [Hm1 Hm2]. fold m in Hm1, Hm2.
  rewrite <- Eg in Hm1, Hm2.
  destruct (proj2 Hwf m Hm1) as [Hma _].
  assert (adj_has (adjacency_map g) (ea m) m) as [es [Ees Hin]] by (apply adjacency_spec; auto).
  rewrite Ees.
  destruct (prim_loop_spec pop Hpop g Hns (ea m)
    (S (length (filter (fun e => negb (contains_vertex empty_graph (eb e))) es) + list_sum (map (fun kv => length (snd kv)) (adjacency_map g))))
    (wrap64 (Z.of_nat (length (g_vertices g)) - 1))
    (filter (fun e => negb (contains_vertex empty_graph (eb e))) es) empty_graph) as [out [q' [H1 [I Hend]]]].
  { apply inv_init; auto. }
  { apply le_n_S. apply Nat.add_le_mono_l. unfold pending. cbn. reflexivity. }
  rewrite H1. exists out, (ea m), m. split; [reflexivity|]. rewrite <- Eg.
  assert (forall v, conn (g_edges g) (ea m) v -> In v (vis (ea m) (g_edges out))) as Hall.
  { destruct Hend as [-> |Hend].
    - intros v. eapply inv_closed; eauto.
    - eapply inv_full; eauto.
      assert (1 <= length (g_vertices g)) by (destruct (g_vertices g); [destruct Hma|cbn; lia]).
      unfold wrap64 in Hend. rewrite Z.mod_small in Hend by lia. lia. }
  assert (forall v, conn (g_edges out) (ea m) v -> conn (g_edges g) (ea m) v) as Hback.
  { intros v. apply conn_sub. intros e He. apply (conn_edges_of (g_edges out)); [|exact He].
    exact (i_adj _ _ _ _ _ I). }
  split; [exact Hm1|]. split; [reflexivity|]. split; [exact Hm2|].
  split; [exact (i_adj _ _ _ _ _ I)|]. split; [apply (i_forest _ _ _ _ _ I)|].
  split; [apply (i_compute _ _ _ _ _ I)|].
  split.
  { intros v. rewrite (i_vs _ _ _ _ _ I). split.
    - intros [_ Hv]. apply Hback, (i_conn _ _ _ _ _ I), Hv.
    - intros Hv. split; [|apply Hall, Hv]. intros E.
      assert (In (eb m) (vis (ea m) (g_edges out))) as Hx by (apply Hall, conn_edge, Hm1).
      rewrite E in Hx. destruct Hx as [Hx|[]]. apply (Hns m Hm1 Hx). }
  split.
  { intros v. split; [|apply Hback]. intros Hv. apply (i_conn _ _ _ _ _ I), Hall, Hv. }
  intros e He Hc. apply (i_done _ _ _ _ _ I).
  - apply He. left; reflexivity.
  - apply Hall, Hc.
  - apply Hall. eapply conn_trans; [exact Hc|]. eapply conn_edges_of; [exact He|left; reflexivity].
Qed.

Lemma from_negate t es : length (from t (map negate_cost es)) = length (up_to (- t) es).
Proof.
  rewrite <- (Z.opp_involutive t) at 1. rewrite <- (negate_map_invol es) at 2. rewrite up_to_negate, Z.opp_involutive. reflexivity.
Qed.

Lemma negate_from t es : map negate_cost (from t es) = up_to (- t) (map negate_cost es).
Proof.
  unfold from, up_to. induction es as [|e es IH]; cbn; [reflexivity|].
  destruct (Z.leb_spec t (ecost e)); destruct (Z.leb_spec (- ecost e) (- t)); cbn; try lia; congruence.
Qed.

Lemma greedy_counts_max F K : forest F ->
  (forall e, In e F -> conn (from (ecost e) K) (ea e) (eb e)) ->
  forall t, length (from t F) <= length (from t K : list (edge V)).
Proof.
  intros HF Hs t. apply forest_size; [apply forest_filter; exact HF|].
  intros e He. apply filter_In in He as [He Hc]. eapply conn_incl; [|apply Hs, He].
  intros x Hx. apply filter_In in Hx as [Hx Hx']. apply filter_In. split; [exact Hx|]. lia.
Qed.

Lemma greedy_total_max F K : forest F -> forest K ->
  (forall e, In e F -> conn (from (ecost e) K) (ea e) (eb e)) ->
  (forall e, In e K -> conn F (ea e) (eb e)) ->
  (total_cost F <= total_cost (K : list (edge V)))%Z.
Proof.
  intros HF HK Hs Hr.
  assert (total_cost (map negate_cost K) <= total_cost (map negate_cost F))%Z as Hle.
  { apply greedy_total; [apply forest_negate, HF|apply forest_negate, HK| |].
    - intros e He. apply in_map_iff in He as [f [<- Hf]]. cbn [ecost negate_cost ea eb].
      rewrite <- negate_from. apply conn_negate, Hs, Hf.
    - intros e He. apply in_map_iff in He as [f [<- Hf]]. apply conn_negate. apply (Hr f Hf). }
  rewrite !total_negate in Hle. lia.
Qed.

(* connected graphs *)
Lemma prim_connected pop (g : graph V) : pop_contract pop -> wf_graph g -> no_self_loops g -> connected g ->
  (Z.of_nat (length (g_vertices g)) <= 2 ^ 64)%Z -> g_edges g <> [] ->
  exists out, maximum_spanning_tree pop g = Some (Ok out) /\
    edges_of (g_edges out) (g_edges g) /\ spanning_forest_of (g_edges out) (g_edges g) /\
    g_vertices out = g_vertices g /\
    (forall F, forest F -> edges_of F (g_edges g) -> forall t, length (from t F) <= length (from t (g_edges out))) /\
    (forall F, edges_of F (g_edges g) -> spanning_forest_of F (g_edges g) ->
       (total_cost F <= total_cost (g_edges out))%Z).
Proof.
  intros Hpop Hwf Hns Hcon Hsz Hne.
  destruct (prim_spec pop g Hpop Hwf Hns Hsz Hne) as [out [s [m [H1 [Hm [Hs [Hmax [He [Hf [Hcv [Hv [Hc Hb]]]]]]]]]]]].
  exists out. split; [exact H1|]. split; [exact He|].
  assert (In s (g_vertices g)) as Hsg by (rewrite <- Hs; apply (proj2 Hwf), Hm).
  assert (spanning_forest_of (g_edges out) (g_edges g)) as Hsp.
  { split; [exact Hf|]. intros u v. split.
    - intros Huv. apply conn_ends in Huv as Hends. destruct Hends as [->|[[e [Hi Hu]] [e' [Hi' Hv']]]]; [apply conn_refl|].
      apply (proj2 Hwf) in Hi, Hi'.
      assert (In u (g_vertices g)) as Hug by (destruct Hu as [->| ->]; tauto).
      assert (In v (g_vertices g)) as Hvg by (destruct Hv' as [->| ->]; tauto).
      eapply conn_trans; [apply conn_sym|]; apply Hc, Hcon; assumption.
    - apply conn_sub. intros e Hi. eapply conn_edges_of; eauto. }
  split; [exact Hsp|]. split.
  { apply sorted_ext; [rewrite Hcv; apply compute_vertices_sorted|apply (proj1 Hwf)|].
    intros v. rewrite Hv. split; [|intros Hvg; apply Hcon; assumption].
    intros Hsv. apply conn_ends in Hsv as [<-|[_ [e [Hi Hx]]]]; [exact Hsg|].
    apply (proj2 Hwf) in Hi. destruct Hx as [->| ->]; tauto. }
  assert (forall F, edges_of F (g_edges g) -> forall e, In e F -> conn (from (ecost e) (g_edges out)) (ea e) (eb e)) as Hspan.
  { intros F HF e Hi. apply Hb; [intros x [<-|[]]; apply HF, Hi|].
    apply Hcon; [exact Hsg|]. destruct (HF e Hi) as [Hx|Hx]; apply (proj2 Hwf) in Hx; cbn in Hx; tauto. }
  split.
  - intros F HF HFe. apply greedy_counts_max; [exact HF|apply Hspan, HFe].
  - intros F HFe [HF HFs]. apply greedy_total_max; [exact HF|exact Hf|apply Hspan, HFe|].
    intros e Hi. apply HFs. exact (conn_edges_of (g_edges out) _ e He Hi).
Qed.

(* the tree of the component of the most expensive edge *)
Lemma prim_component pop (g : graph V) : pop_contract pop -> wf_graph g -> no_self_loops g ->
  (Z.of_nat (length (g_vertices g)) <= 2 ^ 64)%Z -> g_edges g <> [] ->
  exists out s m, maximum_spanning_tree pop g = Some (Ok out) /\
    In m (g_edges g) /\ ea m = s /\ (forall e, In e (g_edges g) -> (ecost e <= ecost m)%Z) /\
    edges_of (g_edges out) (g_edges g) /\ forest (g_edges out) /\
    (forall v, In v (g_vertices out) <-> conn (g_edges g) s v) /\
    (forall v, conn (g_edges g) s v <-> conn (g_edges out) s v) /\
    (forall F, edges_of F (g_edges g) -> forest F -> (forall v, conn (g_edges g) s v <-> conn F s v) ->
       (forall e, In e F -> conn (g_edges g) s (ea e)) -> (total_cost F <= total_cost (g_edges out))%Z).
Proof.
  intros Hpop Hwf Hns Hsz Hne.
  destruct (prim_spec pop g Hpop Hwf Hns Hsz Hne) as [out [s [m [H1 [Hm [Hs [Hmax [He [Hf [Hcv [Hv [Hc Hb]]]]]]]]]]]].
  exists out, s, m. repeat (split; [assumption|]).
  intros F HFe HF Hsp Hcomp. apply greedy_total_max; auto.
  - intros e Hi. apply Hb; [intros x [<-|[]]; apply HFe, Hi|]. apply Hcomp, Hi.
  - intros e Hi. 
    assert (conn (g_edges g) s (ea e)) as Ha.
    { apply Hv. rewrite Hcv. apply compute_vertices_In. eauto. }
    assert (conn (g_edges g) s (eb e)) as Hbb.
    { apply Hv. rewrite Hcv. apply compute_vertices_In. eauto. }
    eapply conn_trans; [apply conn_sym|]; apply Hsp; eassumption.
Qed.

Lemma prim_min_connected pop (g : graph V) : pop_contract pop -> wf_graph g -> no_self_loops g -> connected g ->
  (Z.of_nat (length (g_vertices g)) <= 2 ^ 64)%Z -> g_edges g <> [] ->
  exists out, minimum_spanning_tree pop g = Some (Ok out) /\
    edges_of (g_edges out) (g_edges g) /\ spanning_forest_of (g_edges out) (g_edges g) /\
    g_vertices out = g_vertices g /\
    (forall F, forest F -> edges_of F (g_edges g) -> forall t, length (up_to t F) <= length (up_to t (g_edges out))) /\
    (forall F, edges_of F (g_edges g) -> spanning_forest_of F (g_edges g) ->
       (total_cost (g_edges out) <= total_cost F)%Z).
Proof.
  intros Hpop Hwf Hns Hcon Hsz Hne.
  destruct (prim_connected pop (negate_costs g) Hpop) as [out [H1 [H2 [[H3 H4] [H5 [H6 H7]]]]]]; auto.
  - apply wf_negate, Hwf.
  - cbn. intros e Hi. apply in_map_iff in Hi as [f [<- Hf]]. apply (Hns f Hf).
  - intros u v Hu Hv. cbn. apply conn_negate, Hcon; assumption.
  - cbn. destruct (g_edges g); [contradiction|discriminate].
  - cbn [negate_costs g_edges g_vertices] in *.
    exists (negate_costs out). unfold minimum_spanning_tree. rewrite H1. cbn [option_map bind negate_costs g_edges g_vertices].
    split; [reflexivity|]. split.
    { rewrite <- (negate_map_invol (g_edges g)). apply edges_of_negate, H2. }
    split.
    { split; [apply forest_negate, H3|]. intros u v. rewrite conn_negate, <- H4, conn_negate. reflexivity. }
    split; [exact H5|]. split.
    + intros F HF HFe t. specialize (H6 (map negate_cost F) (forest_negate F HF) (edges_of_negate _ _ HFe) (- t)%Z).
      rewrite from_negate, Z.opp_involutive in H6. rewrite up_to_negate. exact H6.
    + intros F HFe [HF HFs]. specialize (H7 (map negate_cost F) (edges_of_negate _ _ HFe)).
      rewrite total_negate in *.
      assert (- total_cost F <= total_cost (g_edges out))%Z; [|lia]. apply H7. split; [apply forest_negate, HF|].
      intros u v. rewrite !conn_negate. apply HFs.
Qed.
End P.
