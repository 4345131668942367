(* Graph theory for C19 and C20: connectivity, forests and exchange by counting. *)
From Verif Require Import Base BaseProofs StdMapModel StdMapProofs MstModel MstSpec.

Section G.
Context {V : Type} `{OrdKey V}.
Implicit Types es F K : list (edge V).

Lemma conn_refl es u : conn es u u. Proof. apply rst_refl. Qed.
Lemma conn_sym es u v : conn es u v -> conn es v u. Proof. apply rst_sym. Qed.
Lemma conn_trans es u v w : conn es u v -> conn es v w -> conn es u w. Proof. apply rst_trans. Qed.
Lemma conn_edge es e : In e es -> conn es (ea e) (eb e).
Proof. intros Hi. apply rst_step. exists e. auto. Qed.

Lemma conn_sub es es' u v :
  (forall e, In e es -> conn es' (ea e) (eb e)) -> conn es u v -> conn es' u v.
Proof.
  intros Hs. induction 1 as [x y [e [Hi [<- <-]]]| | |]; eauto using conn_refl, conn_sym, conn_trans.
Qed.

Lemma conn_incl es es' u v : incl es es' -> conn es u v -> conn es' u v.
Proof. intros Hi. apply conn_sub. intros e He. apply conn_edge, Hi, He. Qed.

Lemma conn_edges_of es es' e : edges_of es es' -> In e es -> conn es' (ea e) (eb e).
Proof.
  intros He Hi. destruct (He e Hi) as [Hx|Hx]; [apply conn_edge, Hx|].
  apply conn_sym. apply (conn_edge es' (flip e)), Hx.
Qed.

Lemma conn_snoc es e u v : conn (es ++ [e]) u v ->
  conn es u v \/ (conn es u (ea e) /\ conn es (eb e) v) \/ (conn es u (eb e) /\ conn es (ea e) v).
Proof.
  induction 1 as [x y [f [Hi [<- <-]]]|x|x y _ IH|x y z _ IH1 _ IH2].
  - apply in_app_iff in Hi as [Hi|[<-|[]]]; [left; apply conn_edge, Hi|].
    right; left. split; apply conn_refl.
  - left. apply conn_refl.
  - destruct IH as [H1|[[H1 H2]|[H1 H2]]]; [left|right; right|right; left]; intuition eauto using conn_sym.
  - destruct IH1 as [H1|[[H1 H2]|[H1 H2]]]; destruct IH2 as [H3|[[H3 H4]|[H3 H4]]];
      eauto 8 using conn_trans, conn_sym.
Qed.

Lemma conn_isolated es u v : (forall e, In e es -> ea e <> u /\ eb e <> u) -> conn es u v -> u = v.
Proof.
  intros Hi Hc. assert (forall x y, conn es x y -> (x = u <-> y = u)) as Hx.
  { induction 1 as [x y [f [Hf [<- <-]]]| | |]; [specialize (Hi f Hf)| | |]; tauto. }
  symmetry. apply (Hx u v Hc). reflexivity.
Qed.

Lemma forest_snoc es e : forest es -> ~ conn es (ea e) (eb e) -> forest (es ++ [e]).
Proof.
  intros Hf Hn l1 f l2 E. 
  destruct l2 as [|x l2] using rev_ind.
  - apply app_inj_tail in E as [-> ->]. rewrite app_nil_r. exact Hn.
  - clear IHl2. rewrite app_comm_cons, app_assoc in E. apply app_inj_tail in E as [-> ->].
    rewrite app_assoc. intros Hc. apply conn_snoc in Hc as [Hc|[[H1 H2]|[H1 H2]]].
    + eapply Hf; eauto.
    + apply Hn. assert (incl (l1 ++ l2) (l1 ++ f :: l2)) as Hi.
      { intros y Hy. apply in_app_iff in Hy as [Hy|Hy]; apply in_app_iff; [left|right; right]; exact Hy. }
      apply (conn_incl _ _ _ _ Hi) in H1. apply (conn_incl _ _ _ _ Hi) in H2.
      eapply conn_trans; [apply conn_sym, H1|]. eapply conn_trans; [|apply conn_sym, H2].
      apply conn_edge. apply in_app_iff. right; left; reflexivity.
    + apply Hn. assert (incl (l1 ++ l2) (l1 ++ f :: l2)) as Hi.
      { intros y Hy. apply in_app_iff in Hy as [Hy|Hy]; apply in_app_iff; [left|right; right]; exact Hy. }
      apply (conn_incl _ _ _ _ Hi) in H1. apply (conn_incl _ _ _ _ Hi) in H2.
      eapply conn_trans; [exact H2|]. eapply conn_trans; [|exact H1]. apply conn_sym.
      apply conn_edge. apply in_app_iff. right; left; reflexivity.
Qed.

Lemma filter_split {A} (p : A -> bool) (F : list A) l1 e l2 : filter p F = l1 ++ e :: l2 ->
  exists m1 m2, F = m1 ++ e :: m2 /\ l1 = filter p m1 /\ l2 = filter p m2.
Proof.
  revert l1. induction F as [|f F IH]; cbn; intros l1 E; [destruct l1; discriminate|].
  destruct (p f) eqn:Ep.
  - destruct l1 as [|x l1].
    + injection E as -> E. exists [], F. auto.
    + injection E as -> E. destruct (IH _ E) as [m1 [m2 [-> [-> ->]]]].
      exists (x :: m1), m2. cbn. rewrite Ep. auto.
  - destruct (IH _ E) as [m1 [m2 [-> [-> ->]]]]. exists (f :: m1), m2. cbn. rewrite Ep. auto.
Qed.

Lemma forest_filter p F : forest F -> forest (filter p F).
Proof.
  intros Hf l1 e l2 E Hc. apply filter_split in E as [m1 [m2 [-> [-> ->]]]].
  eapply Hf; [reflexivity|]. eapply conn_incl; [|exact Hc].
  intros x Hx. apply in_app_iff in Hx as [Hx|Hx]; apply filter_In in Hx; apply in_app_iff; tauto.
Qed.

Lemma forest_app_l F F' : forest (F ++ F') -> forest F.
Proof.
  intros Hf l1 e l2 -> Hc. eapply (Hf l1 e (l2 ++ F')); [rewrite <- app_assoc; reflexivity|].
  eapply conn_incl; [|exact Hc]. intros x Hx. apply in_app_iff in Hx. rewrite !in_app_iff. tauto.
Qed.

(* components by relabelling *)
Definition relabel (lab : V -> V) (e : edge V) (v : V) : V :=
  if keq_dec (lab v) (lab (ea e)) then lab (eb e) else lab v.
Definition labels es : V -> V := fold_left relabel es (fun v => v).

Lemma labels_spec es u v : labels es u = labels es v <-> conn es u v.
Proof.
  revert u v. induction es as [|e es IH] using rev_ind; intros u v.
  - cbn. split; [intros ->; apply conn_refl|]. intros Hc. apply conn_isolated in Hc; [exact Hc|]. intros e [].
  - unfold labels. rewrite fold_left_app. cbn. fold (labels es). unfold relabel.
    assert (forall x y, conn es x y -> conn (es ++ [e]) x y) as Hi
      by (intros x y; apply conn_incl; intros z Hz; apply in_app_iff; auto).
    assert (conn (es ++ [e]) (ea e) (eb e)) as He by (apply conn_edge, in_app_iff; right; left; reflexivity).
    split.
    + destruct (keq_dec (labels es u) (labels es (ea e))) as [E1|E1];
      destruct (keq_dec (labels es v) (labels es (ea e))) as [E2|E2]; intros E.
      * apply Hi, IH. congruence.
      * apply IH in E1. apply IH in E. apply Hi in E1, E.
        eapply conn_trans; [exact E1|]. eapply conn_trans; [exact He|exact E].
      * apply IH in E2. apply IH in E. apply Hi in E2, E.
        eapply conn_trans; [exact E|]. eapply conn_trans; [apply conn_sym, He|apply conn_sym, E2].
      * apply Hi, IH, E.
    + intros Hc. apply conn_snoc in Hc as [Hc|[[H1 H2]|[H1 H2]]].
      * apply IH in Hc. rewrite Hc. reflexivity.
      * apply IH in H1, H2. rewrite H1. destruct (keq_dec _ _); [|contradiction].
        destruct (keq_dec _ _); congruence.
      * apply IH in H1, H2. rewrite <- H2. destruct (keq_dec (labels es (ea e)) _); [|contradiction].
        destruct (keq_dec _ _); congruence.
Qed.

Definition comps es (vs : list V) : nat := length (nodup keq_dec (map (labels es) vs)).

Lemma remove_length_NoDup {A} (d : forall x y : A, {x = y} + {x <> y}) x l :
  NoDup l -> length l <= S (length (remove d x l)).
Proof.
  induction 1 as [|a l Hn Hl IH]; cbn; [lia|]. destruct (d x a) as [<-|Ha]; cbn; [|lia].
  rewrite notin_remove; auto.
Qed.

Lemma comps_snoc_ge es e vs : comps es vs <= S (comps (es ++ [e]) vs).
Proof.
  unfold comps. etransitivity; [apply (remove_length_NoDup keq_dec (labels es (ea e))), NoDup_nodup|].
  apply le_n_S. apply NoDup_incl_length.
  - clear. generalize (NoDup_nodup keq_dec (map (labels es) vs)). generalize (nodup keq_dec (map (labels es) vs)).
    induction 1 as [|a l Hn Hl IH]; cbn; [constructor|]. destruct (keq_dec _ _); [exact IH|].
    constructor; [|exact IH]. intros Hin. apply in_remove in Hin. tauto.
  - intros x Hx. apply in_remove in Hx as [Hx Hne]. apply nodup_In in Hx. apply nodup_In.
    apply in_map_iff in Hx as [v [<- Hv]]. apply in_map_iff. exists v. split; [|exact Hv].
    unfold labels at 1. rewrite fold_left_app. cbn. fold (labels es). unfold relabel.
    destruct (keq_dec _ _); [contradiction|reflexivity].
Qed.

Lemma comps_ge es vs : comps [] vs <= comps es vs + length es.
Proof.
  induction es as [|e es IH] using rev_ind; [cbn; lia|].
  pose proof (comps_snoc_ge es e vs). rewrite app_length. cbn. lia.
Qed.

Lemma comps_snoc_lt es e vs : In (ea e) vs -> In (eb e) vs -> ~ conn es (ea e) (eb e) ->
  S (comps (es ++ [e]) vs) <= comps es vs.
Proof.
  intros Ha Hb Hn. rewrite <- labels_spec in Hn. unfold comps.
  apply (NoDup_incl_length (l := labels es (ea e) :: nodup keq_dec (map (labels (es ++ [e])) vs))).
  - assert (forall v, labels (es ++ [e]) v = relabel (labels es) e v) as Hl
      by (intros v; unfold labels at 1; rewrite fold_left_app; reflexivity).
    constructor; [|apply NoDup_nodup]. intros Hx. apply nodup_In in Hx. apply in_map_iff in Hx as [v [E Hv]].
    rewrite Hl in E. unfold relabel in E. destruct (keq_dec (labels es v) (labels es (ea e))); congruence.
  - intros x [<-|Hx]; apply nodup_In; [apply in_map, Ha|]. apply nodup_In in Hx.
    apply in_map_iff in Hx as [v [<- Hv]].
    unfold labels at 1. rewrite fold_left_app. cbn. fold (labels es). unfold relabel.
    destruct (keq_dec _ _); apply in_map; assumption.
Qed.

Lemma comps_forest F vs : forest F -> (forall e, In e F -> In (ea e) vs /\ In (eb e) vs) ->
  comps F vs + length F <= comps [] vs.
Proof.
  induction F as [|e F IH] using rev_ind; intros Hf Hv; [cbn; lia|].
  assert (In (ea e) vs /\ In (eb e) vs) as [Ha Hb] by (apply Hv, in_app_iff; right; left; reflexivity).
  assert (~ conn F (ea e) (eb e)) as Hn.
  { pose proof (Hf F e [] eq_refl) as Hx. rewrite app_nil_r in Hx. exact Hx. }
  pose proof (comps_snoc_lt F e vs Ha Hb Hn).
  specialize (IH (forest_app_l _ _ Hf)). rewrite app_length. cbn.
  assert (comps F vs + length F <= comps [] vs); [|lia]. apply IH. intros f Hfi. apply Hv, in_app_iff; auto.
Qed.

Lemma reps (f : V -> V) (vs : list V) : exists r, map f r = nodup keq_dec (map f vs).
Proof.
  induction vs as [|v vs [r IH]]; cbn; [exists []; reflexivity|].
  destruct (in_dec keq_dec (f v) (map f vs)); [exists r; exact IH|]. exists (v :: r). cbn. rewrite IH. reflexivity.
Qed.

Lemma map_NoDup_transfer (f g : V -> V) r : (forall u v, In u r -> In v r -> f u = f v -> g u = g v) ->
  NoDup (map g r) -> NoDup (map f r).
Proof.
  intros Hfg. induction r as [|a r IH]; cbn; [constructor|]. intros Hn. inversion Hn as [|? ? Hni Hn']; subst.
  constructor; [|apply IH; [|exact Hn']].
  - intros Hin. apply in_map_iff in Hin as [b [E Hb]]. apply Hni. apply in_map_iff. exists b. split; [|exact Hb].
    apply Hfg; [right; exact Hb|left; reflexivity|exact E].
  - intros u v Hu Hv. apply Hfg; right; assumption.
Qed.

Lemma nodup_subset_reps (f : V -> V) (vs : list V) : exists r, incl r vs /\ map f r = nodup keq_dec (map f vs).
Proof.
  induction vs as [|v vs [r [Hi IH]]]; cbn; [exists []; split; [intros x []|reflexivity]|].
  destruct (in_dec keq_dec (f v) (map f vs)).
  - exists r. split; [apply incl_tl; exact Hi|exact IH].
  - exists (v :: r). cbn. rewrite IH. split; [|reflexivity].
    intros x [<-|Hx]; [left; reflexivity|right; apply Hi, Hx].
Qed.

Lemma comps_mono F K vs : (forall u v, conn F u v -> conn K u v) -> comps K vs <= comps F vs.
Proof.
  intros Hc. unfold comps. destruct (nodup_subset_reps (labels K) vs) as [r [Hi Hr]].
  rewrite <- Hr, map_length, <- (map_length (labels F)).
  apply NoDup_incl_length.
  - eapply map_NoDup_transfer; [|rewrite Hr; apply NoDup_nodup].
    intros u v _ _ E. apply labels_spec in E. apply labels_spec, Hc, E.
  - intros x Hx. apply nodup_In. apply in_map_iff in Hx as [v [<- Hv]]. apply in_map, Hi, Hv.
Qed.

(* a forest spanned by K has at most as many edges as K *)
Lemma forest_size F K : forest F -> (forall e, In e F -> conn K (ea e) (eb e)) -> length F <= length K.
Proof.
  intros Hf Hs. set (vs := flat_map (fun e => [ea e; eb e]) F).
  assert (forall e, In e F -> In (ea e) vs /\ In (eb e) vs) as Hv.
  { intros e He. split; apply in_flat_map; exists e; cbn; auto. }
  pose proof (comps_forest F vs Hf Hv). pose proof (comps_ge K vs).
  pose proof (comps_mono F K vs (fun u v => conn_sub F K u v Hs)). lia.
Qed.

(* sums of costs from counts *)
Definition count_le (t : Z) (xs : list Z) : nat := length (filter (fun x => x <=? t)%Z xs).

Fixpoint zsum_upto (n : nat) (f : nat -> Z) : Z :=
  match n with 0 => 0%Z | S n' => (zsum_upto n' f + f n')%Z end.

Lemma zsum_upto_le n f g : (forall i, i < n -> (f i <= g i)%Z) -> (zsum_upto n f <= zsum_upto n g)%Z.
Proof.
  induction n as [|n IH]; cbn; intros Hf; [lia|]. pose proof (Hf n ltac:(lia)).
  assert (zsum_upto n f <= zsum_upto n g)%Z by (apply IH; intros; apply Hf; lia). lia.
Qed.
Lemma zsum_upto_add n f g : zsum_upto n (fun i => (f i + g i)%Z) = (zsum_upto n f + zsum_upto n g)%Z.
Proof. induction n as [|n IH]; cbn; [reflexivity|]. rewrite IH. lia. Qed.
Lemma zsum_upto_zero n : zsum_upto n (fun _ => 0%Z) = 0%Z.
Proof. induction n as [|n IH]; cbn; [reflexivity|]. rewrite IH. reflexivity. Qed.
Lemma zsum_upto_ext n f g : (forall i, f i = g i) -> zsum_upto n f = zsum_upto n g.
Proof. intros E. induction n as [|n IH]; cbn; [reflexivity|]. rewrite IH, E. reflexivity. Qed.

Lemma zsum_threshold lo n x : (lo <= x <= lo + Z.of_nat n)%Z ->
  zsum_upto n (fun j => if x <=? lo + Z.of_nat j then 1 else 0)%Z = (lo + Z.of_nat n - x)%Z.
Proof.
  induction n as [|n IH]; intros Hx; cbn [zsum_upto]; [lia|].
  destruct (Z.leb_spec x (lo + Z.of_nat n)%Z).
  - rewrite IH; lia.
  - assert (forall m, m <= n -> zsum_upto m (fun j => if x <=? lo + Z.of_nat j then 1 else 0)%Z = 0%Z) as Hz.
    { induction m as [|m IHm]; intros Hm; cbn; [reflexivity|]. rewrite IHm by lia.
      destruct (Z.leb_spec x (lo + Z.of_nat m)%Z); lia. }
    rewrite Hz; lia.
Qed.

Lemma sum_by_counts lo n xs : Forall (fun x => lo <= x <= lo + Z.of_nat n)%Z xs ->
  fold_right Z.add 0%Z xs =
  (Z.of_nat (length xs) * (lo + Z.of_nat n) - zsum_upto n (fun j => Z.of_nat (count_le (lo + Z.of_nat j) xs)))%Z.
Proof.
  induction 1 as [|x xs Hx Hf IH].
  - unfold count_le. cbn. rewrite zsum_upto_zero. reflexivity.
  - cbn [fold_right length]. rewrite IH.
    rewrite (zsum_upto_ext n (fun j => Z.of_nat (count_le (lo + Z.of_nat j) (x :: xs)))
       (fun j => ((if x <=? lo + Z.of_nat j then 1 else 0) + Z.of_nat (count_le (lo + Z.of_nat j) xs))%Z)).
    + rewrite zsum_upto_add, zsum_threshold by exact Hx. lia.
    + intros j. unfold count_le. cbn [filter]. destruct (x <=? lo + Z.of_nat j)%Z; cbn [length]; lia.
Qed.

Lemma bounds_exist (xs : list Z) : exists lo n, Forall (fun x => lo <= x <= lo + Z.of_nat n)%Z xs.
Proof.
  induction xs as [|x xs [lo [n IH]]]; [exists 0%Z, 0; constructor|].
  exists (Z.min lo x), (Z.to_nat (Z.max (lo + Z.of_nat n) x - Z.min lo x)). constructor; [lia|].
  eapply Forall_impl; [|exact IH]. cbn. intros y Hy. lia.
Qed.

Lemma sum_le_of_counts xs ys : length xs = length ys ->
  (forall t, count_le t xs <= count_le t ys) -> (fold_right Z.add 0%Z ys <= fold_right Z.add 0%Z xs)%Z.
Proof.
  intros Hl Hc. destruct (bounds_exist (xs ++ ys)) as [lo [n Hb]]. apply Forall_app in Hb as [Hx Hy].
  rewrite (sum_by_counts lo n xs Hx), (sum_by_counts lo n ys Hy), Hl.
  enough (zsum_upto n (fun j => Z.of_nat (count_le (lo + Z.of_nat j) xs)) <=
          zsum_upto n (fun j => Z.of_nat (count_le (lo + Z.of_nat j) ys)))%Z by lia.
  apply zsum_upto_le. intros j _. specialize (Hc (lo + Z.of_nat j)%Z). lia.
Qed.

Lemma count_le_costs t es : count_le t (map ecost es) = length (up_to t es).
Proof.
  unfold count_le, up_to. induction es as [|e es IH]; cbn; [reflexivity|].
  destruct (ecost e <=? t)%Z; cbn; rewrite IH; reflexivity.
Qed.

(* K is spanning and cheapest first *)
Lemma greedy_counts F K : forest F ->
  (forall e, In e F -> conn (up_to (ecost e) K) (ea e) (eb e)) ->
  forall t, length (up_to t F) <= length (up_to t K).
Proof.
  intros Hf Hs t. apply forest_size; [apply forest_filter; exact Hf|].
  intros e He. apply filter_In in He as [He Hc]. eapply conn_incl; [|apply Hs, He].
  intros x Hx. apply filter_In in Hx as [Hx Hx']. apply filter_In. split; [exact Hx|]. lia.
Qed.

Lemma greedy_total F K : forest F -> forest K ->
  (forall e, In e F -> conn (up_to (ecost e) K) (ea e) (eb e)) ->
  (forall e, In e K -> conn F (ea e) (eb e)) ->
  (total_cost K <= total_cost F)%Z.
Proof.
  intros HF HK Hs Hr. unfold total_cost. apply sum_le_of_counts.
  - rewrite !map_length. apply Nat.le_antisymm; apply forest_size; auto.
    intros e He. eapply conn_incl; [|apply Hs, He]. intros x Hx. apply filter_In in Hx. tauto.
  - intros t. rewrite !count_le_costs. apply greedy_counts; auto.
Qed.
End G.
