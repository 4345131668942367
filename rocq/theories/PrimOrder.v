(* Proofs for C20: what Prim's algorithm returns depends neither on the order of the
   edges of the graph nor on which of several equivalent edges the queue returns. *)
From Verif Require Import Base StdMapModel StdMapProofs MstModel MstSpec MstGraph MstProofs PrimProofs MstProps MstOrder.

Section Order.
Context {V : Type} `{OrdKey V}.

Lemma perm_filter {A} (p : A -> bool) (l l' : list A) : Permutation l l' -> Permutation (filter p l) (filter p l').
Proof.
  induction 1 as [|x l l' _ IH|x y l|l l' l'' _ IH1 _ IH2]; cbn.
  - constructor.
  - destruct (p x); [apply perm_skip|]; exact IH.
  - destruct (p x), (p y); try apply perm_swap; apply Permutation_refl.
  - eapply Permutation_trans; eassumption.
Qed.

Lemma filter_label (p : V -> bool) (es : list (edge V)) :
  map label (filter (fun e => p (eb e)) es) = filter (fun t : V * V * Z => p (snd (fst t))) (map label es).
Proof. induction es as [|e es IH]; cbn; [reflexivity|]. destruct (p (eb e)); cbn; rewrite IH; reflexivity. Qed.

(* the edges leaving v, in both directions *)
Definition star (v : V) (es : list (edge V)) : list (edge V) :=
  flat_map (fun e => (if keqb (ea e) v then [e] else []) ++ (if keqb (eb e) v then [flip e] else [])) es.
Definition star_labels (v : V) (t : V * V * Z) : list (V * V * Z) :=
  (if keqb (fst (fst t)) v then [t] else []) ++ (if keqb (snd (fst t)) v then [(snd (fst t), fst (fst t), snd t)] else []).
Definition listed (l : list (edge V)) : option (list (edge V)) := match l with [] => None | _ => Some l end.

Lemma star_map v es : map label (star v es) = flat_map (star_labels v) (map label es).
Proof.
  unfold star. induction es as [|e es IH]; cbn [flat_map map]; [reflexivity|]. rewrite map_app, IH. f_equal.
  unfold star_labels. change (fst (fst (label e))) with (ea e). change (snd (fst (label e))) with (eb e). destruct (keqb (ea e) v), (keqb (eb e) v); reflexivity.
Qed.

Lemma listed_app l x : listed (l ++ [x]) = Some (l ++ [x]).
Proof. destruct l; reflexivity. Qed.

Lemma push_find m k (e : edge V) v l : wf_map m -> mfind k m = listed l ->
  mfind v (construct_or_push m k e) = if keqb k v then Some (l ++ [e]) else mfind v m.
Proof.
  intros Hm Hk. unfold construct_or_push. destruct (keqb_spec k v) as [<-|Hne]; rewrite Hk.
  - destruct l; cbn; rewrite mfind_massign_eq by exact Hm; reflexivity.
  - destruct l; cbn; apply mfind_massign_neq; auto.
Qed.

Lemma adjacency_find (g : graph V) v : mfind v (adjacency_map g) = listed (star v (g_edges g)).
Proof.
  unfold adjacency_map.
  cut (wf_map (fold_left (fun m e => construct_or_push (construct_or_push m (ea e) e) (eb e) (flip e)) (g_edges g) []) /\
    forall v, mfind v (fold_left (fun m e => construct_or_push (construct_or_push m (ea e) e) (eb e) (flip e)) (g_edges g) [])
      = listed (star v (g_edges g))); [intros [_ Hc]; apply Hc|].
  induction (g_edges g) as [|e es [IHw IH]] using rev_ind; [split; [constructor|reflexivity]|].
  rewrite fold_left_app. cbn [fold_left]. match type of IHw with wf_map ?x => set (m := x) in * end.
  assert (Hw1 : wf_map (construct_or_push m (ea e) e)) by (apply wf_construct_or_push, IHw).
  split; [apply wf_construct_or_push, Hw1|]. intros w.
  assert (H1 : forall w, mfind w (construct_or_push m (ea e) e) = listed (star w es ++ (if keqb (ea e) w then [e] else []))).
  { intros u. rewrite (push_find m (ea e) e u (star (ea e) es) IHw (IH _)).
    destruct (keqb_spec (ea e) u) as [<-|Hne]; [rewrite listed_app; reflexivity|]. rewrite app_nil_r. apply IH. }
  rewrite (push_find _ (eb e) (flip e) w _ Hw1 (H1 _)).
  replace (star w (es ++ [e])) with
    ((star w es ++ (if keqb (ea e) w then [e] else [])) ++ (if keqb (eb e) w then [flip e] else []))
    by (unfold star; rewrite flat_map_app; cbn [flat_map]; rewrite app_nil_r, app_assoc; reflexivity).
  destruct (keqb_spec (eb e) w) as [<-|Hne].
  - rewrite listed_app. reflexivity.
  - rewrite app_nil_r. apply H1.
Qed.

Lemma adjacency_same (g g' : graph V) v : Permutation (ends (g_edges g)) (ends (g_edges g')) ->
  match mfind v (adjacency_map g), mfind v (adjacency_map g') with
  | None, None => True
  | Some es, Some es' => Permutation (map label es) (map label es')
  | _, _ => False
  end.
Proof.
  intros Hp. rewrite !adjacency_find.
  assert (Hs : Permutation (map label (star v (g_edges g))) (map label (star v (g_edges g')))).
  { rewrite !star_map. apply Permutation_flat_map, Hp. }
  destruct (star v (g_edges g)) as [|x l], (star v (g_edges g')) as [|y l']; cbn [listed]; auto.
  - apply Permutation_nil in Hs. discriminate.
  - apply Permutation_sym, Permutation_nil in Hs. discriminate.
Qed.

(* a largest element is the same, whatever the order *)
Lemma largest_label (x y : edge V) l l' : In x l -> In y l' -> Permutation (map label l) (map label l') ->
  (forall f, In f l -> edge_ltb x f = false) -> (forall f, In f l' -> edge_ltb y f = false) -> label x = label y.
Proof.
  intros Hx Hy Hp Mx My.
  assert (Hx' : In (label x) (map label l')) by (apply (Permutation_in _ Hp), in_map, Hx).
  assert (Hy' : In (label y) (map label l)) by (apply (Permutation_in _ (Permutation_sym Hp)), in_map, Hy).
  apply in_map_iff in Hx' as [x' [Ex Ix]]. apply in_map_iff in Hy' as [y' [Ey Iy]].
  apply edge_le_antisym.
  - rewrite <- (label_ltb x x y' y eq_refl Ey). apply Mx, Iy.
  - rewrite <- (label_ltb y y x' x eq_refl Ex). apply My, Ix.
Qed.

Lemma max_element_largest (es : list (edge V)) : forall e f, In f (e :: es) -> edge_ltb (max_element e es) f = false.
Proof.
  unfold max_element. induction es as [|e' es IH]; intros e f Hf; cbn [fold_left].
  - destruct Hf as [<-|[]]. apply edge_le_iff. tauto.
  - set (b := if edge_ltb e e' then e' else e) in *. destruct Hf as [<-|[<-|Hf]].
    + eapply edge_le_trans; [|apply (IH b b); left; reflexivity]. unfold b. destruct (edge_ltb e e') eqn:E.
      * apply edge_le_total, E.
      * apply edge_le_iff. tauto.
    + eapply edge_le_trans; [|apply (IH b b); left; reflexivity]. unfold b. destruct (edge_ltb e e') eqn:E; [|exact E].
      apply edge_le_iff. tauto.
    + apply (IH b). right. exact Hf.
Qed.

Section Two.
Variables pop pop' : list (edge V) -> option (edge V * list (edge V)).
Hypothesis Hpop : pop_contract pop.
Hypothesis Hpop' : pop_contract pop'.

Lemma prim_labels (g g' : graph V) m : Permutation (ends (g_edges g)) (ends (g_edges g')) ->
  forall fuel fuel' q q' o o' r r', Permutation (map label q) (map label q') -> same_graph o o' ->
  prim_loop pop fuel (adjacency_map g) m q o = Some r -> prim_loop pop' fuel' (adjacency_map g') m q' o' = Some r' ->
  same_outcome r r'.
Proof.
  intros Hg. induction fuel as [|fuel IH]; intros fuel' q q' o o' r r' Hq Ho Hr Hr'; [discriminate|].
  destruct fuel' as [|fuel']; [discriminate|]. cbn [prim_loop] in Hr, Hr'.
  pose proof (Hpop q) as P. pose proof (Hpop' q') as P'.
  destruct (pop q) as [[e q1]|], (pop' q') as [[e' q1']|].
  - destruct P as [P M], P' as [P' M'].
    assert (He : label e = label e').
    { apply (largest_label e e' q q'); auto.
      - eapply Permutation_in; [apply Permutation_sym, P|left; reflexivity].
      - eapply Permutation_in; [apply Permutation_sym, P'|left; reflexivity]. }
    assert (Hq1 : Permutation (map label q1) (map label q1')).
    { apply (Permutation_cons_inv (a := label e)). rewrite He at 2.
      change (Permutation (map label (e :: q1)) (map label (e' :: q1'))).
      eapply Permutation_trans; [apply Permutation_map, Permutation_sym, P|].
      eapply Permutation_trans; [exact Hq|apply Permutation_map, P']. }
    pose proof He as He0. unfold label in He0. injection He0 as Ea Eb Ec.
    destruct Ho as [Ho Hv].
    assert (Hl : length (g_edges o) = length (g_edges o')).
    { apply (f_equal (@length _)) in Ho. unfold ends in Ho. rewrite !map_length in Ho. exact Ho. }
    rewrite <- Hl in Hr'. unfold contains_vertex in Hr, Hr'. rewrite <- Hv, <- Eb in Hr'.
    destruct (_ <? m)%Z; [|injection Hr as <-; injection Hr' as <-; split; assumption].
    destruct (smem (eb e) (g_vertices o)).
    + eapply IH; [exact Hq1|split; [exact Ho|exact Hv]|exact Hr|exact Hr'].
    + assert (Ho1 : same_graph (add_edge e o) (add_edge e' o')).
      { split; unfold add_edge, ends in *; cbn [g_edges g_vertices]; [|congruence].
        rewrite !map_app, Ho. cbn [map]. congruence. }
      pose proof (adjacency_same g g' (eb e) Hg) as A.
      destruct (mfind (eb e) (adjacency_map g)) as [es|], (mfind (eb e) (adjacency_map g')) as [es'|]; try contradiction.
      * eapply IH; [|exact Ho1|exact Hr|exact Hr'].
        rewrite !map_app. apply Permutation_app; [exact Hq1|].
        rewrite (filter_label (fun v => negb (smem v (g_vertices (add_edge e o))))).
        rewrite (filter_label (fun v => negb (smem v (g_vertices (add_edge e' o'))))).
        rewrite <- (proj2 Ho1). apply perm_filter, A.
      * injection Hr as <-. injection Hr' as <-. exact I.
  - subst q'. destruct P as [P _]. apply Permutation_sym, Permutation_nil in Hq. apply map_eq_nil in Hq. subst q.
    apply Permutation_nil in P. discriminate.
  - subst q. destruct P' as [P' _]. apply Permutation_nil in Hq. apply map_eq_nil in Hq. subst q'.
    apply Permutation_nil in P'. discriminate.
  - injection Hr as <-. injection Hr' as <-. exact Ho.
Qed.

Lemma tree_order_irrelevant (g g' : graph V) r r' :
  g_vertices g = g_vertices g' -> Permutation (ends (g_edges g)) (ends (g_edges g')) ->
  maximum_spanning_tree pop g = Some r -> maximum_spanning_tree pop' g' = Some r' -> same_outcome r r'.
Proof.
  intros Hv Hg. unfold maximum_spanning_tree. rewrite <- Hv. pose proof Hg as Hp.
  destruct (g_edges g) as [|x l] eqn:E, (g_edges g') as [|y l'] eqn:E'.
  - intros [= <-] [= <-]. split; reflexivity.
  - apply Permutation_nil in Hp. discriminate.
  - apply Permutation_sym, Permutation_nil in Hp. discriminate.
  - rewrite <- E, <- E' in Hg.
    assert (Hm : label (max_element x l) = label (max_element y l')).
    { apply (largest_label _ _ (x :: l) (y :: l')); auto using max_element_largest; apply max_element_spec. }
    unfold label in Hm. injection Hm as Ea _ _. rewrite <- Ea.
    pose proof (adjacency_same g g' (ea (max_element x l)) Hg) as A.
    destruct (mfind _ (adjacency_map g)) as [es|], (mfind _ (adjacency_map g')) as [es'|]; try contradiction.
    + intros Hr Hr'. eapply (prim_labels g g' _ Hg); [|split; reflexivity|exact Hr|exact Hr'].
      rewrite !(filter_label (fun v => negb (contains_vertex empty_graph v))). apply perm_filter, A.
    + intros [= <-] [= <-]. exact I.
Qed.
End Two.

Lemma min_tree_order_irrelevant pop pop' (g g' : graph V) r r' : pop_contract pop -> pop_contract pop' ->
  g_vertices g = g_vertices g' -> Permutation (ends (g_edges g)) (ends (g_edges g')) ->
  minimum_spanning_tree pop g = Some r -> minimum_spanning_tree pop' g' = Some r' -> same_outcome r r'.
Proof.
  intros Hp Hp' Hv Hg. unfold minimum_spanning_tree.
  destruct (maximum_spanning_tree pop (negate_costs g)) as [s|] eqn:E; [|discriminate].
  destruct (maximum_spanning_tree pop' (negate_costs g')) as [s'|] eqn:E'; [|discriminate].
  intros [= <-] [= <-].
  assert (Hk : same_outcome s s').
  { eapply (tree_order_irrelevant pop pop' Hp Hp'); [| |exact E|exact E']; [exact Hv|].
    cbn [negate_costs g_edges]. rewrite !ends_negate. apply Permutation_map, Hg. }
  destruct s as [o| | |], s' as [o'| | |]; try exact Hk.
  destruct Hk as [He Hw]. split; [|exact Hw]. cbn [negate_costs g_edges]. rewrite !ends_negate, He. reflexivity.
Qed.
End Order.
