From Coq Require Import String Ascii.
From Verif Require Import Base BaseProofs StdMapModel StdMapProofs StringKeyModel XmlModel XmlSpec.

Section Induction.
Variable Q : xml_node -> Prop.
Hypothesis step : forall b n v cs, Forall Q cs -> Q (Node b n v cs).
Fixpoint node_ind' (node : xml_node) : Q node :=
  match node with
  | Node b n v cs => step b n v cs ((fix go cs : Forall Q cs :=
      match cs with [] => Forall_nil Q | c :: cs => Forall_cons c (node_ind' c) (go cs) end) cs)
  end.
End Induction.

(* the last value with a key *)
Fixpoint find_last (k : string) (l : list (string * string)) : option string :=
  match l with
  | [] => None
  | (k', v) :: l => match find_last k l with Some w => Some w | None => if String.eqb k' k then Some v else None end
  end.
Lemma find_last_app k l l' : find_last k (l ++ l') = match find_last k l' with Some w => Some w | None => find_last k l end.
Proof.
  induction l as [|[k' v] l IH]; cbn; [destruct (find_last k l'); reflexivity|].
  rewrite IH. destruct (find_last k l'); reflexivity.
Qed.
Lemma find_last_In k l v : find_last k l = Some v -> In (k, v) l.
Proof.
  induction l as [|[k' w] l IH]; cbn; [discriminate|].
  destruct (find_last k l) as [u|]; [intros E; right; apply IH, E|].
  destruct (String.eqb_spec k' k) as [->|]; [|discriminate]. intros E. injection E as ->. left. reflexivity.
Qed.
Lemma find_last_None k l : find_last k l = None -> ~ In k (map fst l).
Proof.
  induction l as [|[k' w] l IH]; cbn; [intros _ H; exact H|].
  destruct (find_last k l) as [u|]; [discriminate|].
  destruct (String.eqb_spec k' k) as [->|]; [discriminate|]. intros _ [E|H]; [congruence|]. exact (IH eq_refl H).
Qed.
Lemma mfind_massign_all l m k : wf_map m ->
  mfind k (massign_all l m) = match find_last k l with Some v => Some v | None => mfind k m end.
Proof.
  unfold massign_all. revert m. induction l as [|[k' v] l IH]; intros m Hm; cbn; [reflexivity|].
  rewrite IH by (apply wf_massign, Hm). destruct (find_last k l); [reflexivity|].
  destruct (String.eqb_spec k' k) as [->|Hne]; [apply mfind_massign_eq, Hm|].
  apply mfind_massign_neq; [exact Hm|congruence].
Qed.
Lemma find_last_map_ m k : wf_map m -> find_last k m = mfind k m.
Proof.
  intros Hm. destruct (find_last k m) as [v|] eqn:E.
  - symmetry. apply mfind_In; [exact Hm|]. apply find_last_In, E.
  - symmetry. apply mfind_None; [exact Hm|]. apply find_last_None, E.
Qed.
Definition renamed (f : string -> string) (l : list (string * string)) := map (fun p => (f (fst p), snd p)) l.
Lemma find_last_renamed f l k : (forall a b, f a = f b -> a = b) -> find_last (f k) (renamed f l) = find_last k l.
Proof.
  intros Hf. induction l as [|[k' v] l IH]; cbn; [reflexivity|]. fold (renamed f l). rewrite IH.
  destruct (find_last k l); [reflexivity|].
  destruct (String.eqb_spec k' k) as [->|Hne]; [rewrite String.eqb_refl; reflexivity|].
  destruct (String.eqb_spec (f k') (f k)) as [E|]; [apply Hf in E; congruence|reflexivity].
Qed.
Lemma renamed_ext f l l' : (forall a b, f a = f b -> a = b) -> (forall k, find_last k l = find_last k l') ->
  forall k, find_last k (renamed f l) = find_last k (renamed f l').
Proof.
  intros Hf H k.
  assert (A : forall l l', (forall k, find_last k l = find_last k l') -> forall v, find_last k (renamed f l) = Some v -> find_last k (renamed f l') = Some v).
  { clear l l' H. intros l l' H v E. pose proof (find_last_In _ _ _ E) as Hin. apply in_map_iff in Hin.
    destruct Hin as [[k' w] [E' _]]. cbn in E'. injection E' as <- <-.
    rewrite find_last_renamed in E |- * by exact Hf. rewrite <- H. exact E. }
  destruct (find_last k (renamed f l)) as [v|] eqn:E; [symmetry; apply (A _ _ H), E|].
  destruct (find_last k (renamed f l')) as [v|] eqn:E'; [|reflexivity].
  rewrite (A l' l (fun k => eq_sym (H k)) v E') in E. discriminate.
Qed.

Lemma append_inj (a b c : string) : (a ++ b)%string = (a ++ c)%string -> b = c.
Proof. induction a as [|x a IH]; cbn; intros E; [exact E|]. injection E as E. apply IH, E. Qed.
Lemma joined_inj p n a b : joined_name p n a = joined_name p n b -> a = b.
Proof. destruct p; cbn; [|auto]. intros E. apply append_inj in E. injection E as E. exact E. Qed.

(* the keys: the names joined, the first one only if it is to be prepended or is alone *)
Definition key (prepend : bool) (path : list string) : string := if prepend then String.concat "." path else column path.
Definition keyed (prepend : bool) (l : list (list string * string)) := map (fun lf => (key prepend (fst lf), snd lf)) l.

Lemma leaves_path node : Forall (fun lf => fst lf <> []) (leaves node).
Proof.
  destruct node as [b n v cs]. cbn. destruct v; [|constructor; [discriminate|constructor]].
  induction cs as [|[[|] n' v' cs'] cs IH]; [constructor| |exact IH].
  apply Forall_app. split; [|exact IH]. apply Forall_forall. intros lf H. apply in_map_iff in H. destruct H as [? [<- _]]. discriminate.
Qed.
Lemma keyed_below p n l : Forall (fun lf => fst lf <> []) l ->
  keyed p (map (fun lf => (n :: fst lf, snd lf)) l) = renamed (joined_name p n) (keyed true l).
Proof.
  intros H. unfold keyed, renamed. rewrite !map_map. apply map_ext_in. intros [path v] Hin.
  rewrite Forall_forall in H. specialize (H _ Hin). cbn in *. f_equal.
  destruct path as [|q r]; [congruence|]. destruct p; reflexivity.
Qed.
Lemma flatten_spec node : forall p, wf_map (flatten_xml_serialization p node) /\
  forall k, mfind k (flatten_xml_serialization p node) = find_last k (keyed p (leaves node)).
Proof.
  induction node as [b n v cs IH] using node_ind'. intros p. cbn [flatten_xml_serialization leaves].
  destruct v as [|x v]; cbn [nonempty].
  2:{ split; [constructor; constructor|]. intros k. destruct p; cbn -[String.eqb kcmp];
      change (mfind k (massign n (String x v) []) = if String.eqb n k then Some (String x v) else None);
      (destruct (String.eqb_spec n k) as [->|Hne]; [apply mfind_massign_eq, wf_nil|rewrite mfind_massign_neq; [reflexivity|apply wf_nil|congruence]]). }
  set (loop := fix loop (children : list xml_node) (output : smap string string) := _).
  set (below := fix below (children : list xml_node) := _).
  assert (A : forall out, wf_map out -> wf_map (loop cs out) /\
    forall k, mfind k (loop cs out) = match find_last k (keyed p (below cs)) with Some v => Some v | None => mfind k out end).
  { clear b. induction cs as [|c cs IHcs]; intros out Hout; [split; [exact Hout|reflexivity]|].
    inversion IH as [|? ? Hc Hcs]; subst.
    destruct c as [[|] n' v' cs'].
    - cbn [loop node_is_element below].
      set (c := Node true n' v' cs') in *. destruct (Hc true) as [Hw Hf].
      set (m := map _ (flatten_xml_serialization true c)).
      assert (Em : forall k, find_last k m = find_last k (keyed p (map (fun lf => (n :: fst lf, snd lf)) (leaves c)))).
      { intros k. rewrite keyed_below by apply leaves_path. apply (renamed_ext (joined_name p n)); [apply joined_inj|].
        intros k'. rewrite find_last_map_ by exact Hw. apply Hf. }
      destruct (IHcs Hcs (massign_all m out) (massign_all_wf m out Hout)) as [I1 I2]. split; [exact I1|].
      intros k. rewrite I2. unfold keyed at 2. rewrite map_app, find_last_app. fold (keyed p (below cs)).
      fold (keyed p (map (fun lf : list string * string => (n :: fst lf, snd lf)) (leaves c))).
      destruct (find_last k (keyed p (below cs))); [reflexivity|].
      rewrite mfind_massign_all by exact Hout. rewrite Em. reflexivity.
    - cbn [loop node_is_element below]. apply IHcs; assumption. }
  destruct (A [] wf_nil) as [A1 A2]. split; [exact A1|]. intros k. rewrite A2.
  destruct (find_last k (keyed p (below cs))); reflexivity.
Qed.
Lemma last_written_find l k : last_written l k = find_last k (keyed false l).
Proof.
  unfold last_written. 
  assert (A : forall found, fold_left (fun found leaf => if String.eqb (column (fst leaf)) k then Some (snd leaf) else found) l found =
    match find_last k (keyed false l) with Some v => Some v | None => found end).
  { induction l as [|[p v] l IH]; intros found; [reflexivity|]. cbn [fold_left fst snd]. rewrite IH.
    change (keyed false ((p, v) :: l)) with ((column p, v) :: keyed false l). cbn [find_last].
    destruct (find_last k (keyed false l)); [reflexivity|]. destruct (String.eqb (column p) k); reflexivity. }
  rewrite A. destruct (find_last k (keyed false l)); reflexivity.
Qed.
Lemma flatten_last_written node k : mfind k (flatten_xml_serialization false node) = last_written (leaves node) k.
Proof. rewrite last_written_find. apply flatten_spec. Qed.

(* ---- names without dots ---- *)
Lemma dotted_inj a b s t : dot_free a = true -> dot_free b = true -> (a ++ String "." s)%string = (b ++ String "." t)%string -> a = b /\ s = t.
Proof.
  revert b. induction a as [|x a IH]; intros [|y b] Ha Hb E; cbn in *.
  - injection E as E. split; [reflexivity|exact E].
  - injection E as E1 _. subst y. cbn in Hb. discriminate.
  - injection E as E1 _. subst x. cbn in Ha. discriminate.
  - injection E as E1 E2. apply andb_true_iff in Ha. apply andb_true_iff in Hb.
    destruct (IH b (proj2 Ha) (proj2 Hb) E2) as [-> ->]. subst. split; reflexivity.
Qed.
Lemma dot_in a s : dot_free (a ++ String "." s)%string = false.
Proof. induction a as [|x a IH]; cbn; [reflexivity|]. rewrite IH. apply andb_false_r. Qed.
Lemma concat_inj p q : Forall (fun s => dot_free s = true) p -> Forall (fun s => dot_free s = true) q -> p <> [] -> q <> [] ->
  String.concat "." p = String.concat "." q -> p = q.
Proof.
  revert q. induction p as [|a p IH]; intros [|b q] Hp Hq Np Nq E; try congruence.
  inversion Hp; inversion Hq; subst.
  destruct p as [|a' p]; destruct q as [|b' q].
  - cbn in E. congruence.
  - exfalso. cbn [String.concat] in E. change (a = (b ++ String "." (String.concat "." (b' :: q)))%string) in E.
    pose proof (dot_in b (String.concat "." (b' :: q))) as D. rewrite <- E in D. congruence.
  - exfalso. cbn [String.concat] in E. change ((a ++ String "." (String.concat "." (a' :: p)))%string = b) in E.
    pose proof (dot_in a (String.concat "." (a' :: p))) as D. rewrite E in D. congruence.
  - change ((a ++ String "." (String.concat "." (a' :: p)))%string = (b ++ String "." (String.concat "." (b' :: q)))%string) in E.
    apply dotted_inj in E; [|assumption|assumption]. destruct E as [-> E]. f_equal. apply IH; [assumption|assumption|discriminate|discriminate|exact E].
Qed.
Lemma leaves_head node : let 'Node _ n _ _ := node in forall lf, In lf (leaves node) -> exists r, fst lf = n :: r.
Proof.
  destruct node as [b n v cs]. intros lf. cbn. destruct v; [|intros [<-|[]]; exists []; reflexivity].
  induction cs as [|[[|] n' v' cs'] cs IH]; [intros []| |exact IH].
  rewrite in_app_iff. intros [H|H]; [|exact (IH H)]. apply in_map_iff in H. destruct H as [x [<- _]]. eexists. reflexivity.
Qed.
Lemma proper_leaves node : proper node -> NoDup (map fst (leaves node)) /\ Forall (fun lf => Forall (fun s => dot_free s = true) (fst lf)) (leaves node).
Proof.
  induction node as [b n v cs IH] using node_ind'. intros H. inversion H as [? ? ? ? Hd Hn Hc]; subst.
  cbn [leaves]. destruct v as [|x v].
  2:{ split; [repeat constructor; intros []|repeat constructor; exact Hd]. }
  set (below := fix below (children : list xml_node) := _).
  assert (Hin : forall cs lf, In lf (below cs) -> exists m r, In m (element_names cs) /\ fst lf = n :: m :: r).
  { clear. induction cs as [|[[|] n' v' cs'] cs IH]; intros lf; [intros []| |exact (IH lf)].
    cbn [below element_names flat_map]. rewrite in_app_iff. intros [H|H].
    - apply in_map_iff in H. destruct H as [x [<- Hx]]. pose proof (leaves_head (Node true n' v' cs') x Hx) as [r Er].
      exists n', r. split; [left; reflexivity|]. cbn. rewrite Er. reflexivity.
    - destruct (IH _ H) as [m [r [Hm Er]]]. exists m, r. split; [right; exact Hm|exact Er]. }
  clear b H. induction cs as [|c cs IHcs]; [split; constructor|].
  inversion IH as [|? ? I1 I2]; inversion Hc as [|? ? C1 C2]; subst.
  destruct c as [[|] n' v' cs']; [|cbn [below]; apply IHcs; [assumption| |assumption]; exact Hn].
  cbn [below element_names flat_map] in *. inversion Hn as [|? ? Hn1 Hn2]; subst.
  destruct (IHcs I2 Hn2 C2) as [J1 J2]. destruct (I1 C1) as [L1 L2].
  rewrite map_app. split.
  - apply NoDup_app_intro.
    + rewrite map_map. cbn. change (fun x : list string * string => n :: fst x) with (fun x : list string * string => cons n (fst x)).
      rewrite <- map_map. apply FinFun.Injective_map_NoDup; [|exact L1]. intros a b E. injection E as E. exact E.
    + exact J1.
    + intros p Hp Hq. apply in_map_iff in Hp. destruct Hp as [x [<- Hx]]. apply in_map_iff in Hx. destruct Hx as [y [<- Hy]].
      apply in_map_iff in Hq. destruct Hq as [z [Ez Hz]]. destruct (Hin _ _ Hz) as [m [r [Hm Er]]].
      pose proof (leaves_head (Node true n' v' cs') y Hy) as [r' Er']. cbn [fst] in Ez. rewrite Er, Er' in Ez. injection Ez as <- _. exact (Hn1 Hm).
  - apply Forall_app. split; [|exact J2]. apply Forall_forall. intros x Hx. apply in_map_iff in Hx. destruct Hx as [y [<- Hy]].
    constructor; [exact Hd|]. rewrite Forall_forall in L2. apply L2, Hy.
Qed.

Lemma column_inj node p q v w : proper node -> In (p, v) (leaves node) -> In (q, w) (leaves node) -> column p = column q -> p = q /\ v = w.
Proof.
  intros H Hp Hq E. destruct (proper_leaves _ H) as [Hn Hd]. rewrite Forall_forall in Hd.
  pose proof (Hd _ Hp) as Dp. pose proof (Hd _ Hq) as Dq. cbn [fst] in Dp, Dq.
  assert (Epq : p = q).
  { destruct node as [b n v0 cs]. 
    destruct v0 as [|x v0].
    2:{ cbn in Hp, Hq. destruct Hp as [Hp|[]], Hq as [Hq|[]]. congruence. }
    assert (L : forall l u, In (l, u) (leaves (Node b n EmptyString cs)) -> exists m r, l = n :: m :: r).
    { clear. cbn [leaves]. intros l u. induction cs as [|[[|] n' v' cs'] cs IH]; [intros []| |exact IH].
      rewrite in_app_iff. intros [H|H]; [|exact (IH H)]. apply in_map_iff in H. destruct H as [y [Ey Hy]].
      pose proof (leaves_head (Node true n' v' cs') y Hy) as [r Er]. injection Ey as <- _. rewrite Er. exists n', r. reflexivity. }
    destruct (L _ _ Hp) as [m [r ->]]. destruct (L _ _ Hq) as [m' [r' ->]]. f_equal.
    inversion Dp; inversion Dq; subst. apply concat_inj; [assumption|assumption|discriminate|discriminate|exact E]. }
  split; [exact Epq|]. subst q. clear E. revert Hn Hp Hq. generalize (leaves node). clear. intros l Hn Hp Hq.
  induction l as [|[a b] l IH]; [destruct Hp|]. cbn in Hn. inversion Hn as [|? ? Ha Hl]; subst.
  destruct Hp as [Hp|Hp], Hq as [Hq|Hq].
  - congruence.
  - injection Hp as -> ->. exfalso. apply Ha. apply in_map_iff. exists (p, w). split; [reflexivity|exact Hq].
  - injection Hq as -> ->. exfalso. apply Ha. apply in_map_iff. exists (p, v). split; [reflexivity|exact Hp].
  - exact (IH Hl Hp Hq).
Qed.
Lemma written_some l k v : last_written l k = Some v -> exists p, In (p, v) l /\ column p = k.
Proof.
  rewrite last_written_find. intros E. apply find_last_In in E. apply in_map_iff in E. destruct E as [[p w] [E H]].
  cbn in E. injection E as <- ->. exists p. split; [exact H|reflexivity].
Qed.
Lemma written_none l k : last_written l k = None -> forall p v, In (p, v) l -> column p <> k.
Proof.
  rewrite last_written_find. intros E p v H Ek. apply find_last_None in E. apply E. apply in_map_iff.
  exists (column p, v). split; [exact Ek|]. apply in_map_iff. exists (p, v). split; [reflexivity|exact H].
Qed.
Lemma flatten_exact node : proper node -> forall k v,
  mfind k (flatten_xml_serialization false node) = Some v <-> exists p, In (p, v) (leaves node) /\ column p = k.
Proof.
  intros H k v. rewrite flatten_last_written. split; [apply written_some|]. intros [p [Hp Ek]].
  destruct (last_written (leaves node) k) as [w|] eqn:E.
  - destruct (written_some _ _ _ E) as [q [Hq Eq]]. destruct (column_inj node p q v w H Hp Hq) as [_ ->]; [congruence|reflexivity].
  - exfalso. exact (written_none _ _ E p v Hp Ek).
Qed.
