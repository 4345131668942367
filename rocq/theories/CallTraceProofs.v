From Coq Require Import Reals String Ascii.
From Verif Require Import Base BaseProofs CallTraceModel CallTraceSpec.
Open Scope string_scope.
Open Scope nat_scope.
Open Scope list_scope.

Section P.
Variables to_string show : R -> string.
Notation calls := (calls to_string show).
Notation get_trace := (get_trace to_string show).

Definition name_of (c : cov) : string := match c with Leaf n _ _ => n | _ => default_name c end.
Definition value_of (c : cov) : string := match c with Leaf _ _ v => printed to_string v | _ => printed show (call c) end.
Definition below (d : nat) (c : cov) : list entry :=
  match c with
  | Leaf _ _ _ => []
  | Sum l r => calls (S d) (Some "+"%char) l ++ calls (S d) (Some "+"%char) r
  | Product l r => calls (S d) (Some "*"%char) l ++ calls (S d) (Some "*"%char) r
  end.
Lemma callsE d p c : calls d p c = Entry d p (name_of c) (value_of c) :: below d c.
Proof. destruct c; reflexivity. Qed.
Definition shift (e : entry) : entry := Entry (S (depth e)) (parent e) (e_name e) (e_value e).
Lemma calls_shift d p c : calls (S d) p c = map shift (calls d p c).
Proof.
  revert d p. induction c as [n dn v|l IHl r IHr|l IHl r IHr]; intros d p; cbn [CallTraceSpec.calls map shift depth parent e_name e_value];
    [reflexivity|..]; f_equal; rewrite map_app, <- IHl, <- IHr; reflexivity.
Qed.
Lemma below_shift d c : below (S d) c = map shift (below d c).
Proof. destruct c; cbn [below]; [reflexivity|..]; rewrite map_app, <- !calls_shift; reflexivity. Qed.
Lemma below_deep d c : Forall (fun e => d < depth e /\ parent e <> None) (below d c).
Proof.
  revert d. assert (forall d c p, Forall (fun e => d < depth e /\ parent e <> None) (below d c) -> p <> None ->
    Forall (fun e => d <= depth e /\ parent e <> None) (calls d p c)) as A.
  { intros d c' p F N. rewrite callsE. constructor; [cbn; auto|]. eapply Forall_impl; [|exact F]. cbn. intros e [? ?]. split; [lia|assumption]. }
  induction c as [n dn v|l IHl r IHr|l IHl r IHr]; intros d; cbn [below]; [constructor|..];
    (apply Forall_app; split; (eapply Forall_impl; [|apply A; [|discriminate]; first [apply IHl|apply IHr]])); cbn; intros e [? ?]; split; auto; lia.
Qed.
Lemma delimit e : 0 < depth e -> parent e <> None -> add_delimiter (line e) = line (shift e).
Proof.
  destruct e as [d [p|] n v]; cbn; [|congruence]. intros D _. unfold add_delimiter, line, indented. cbn.
  destruct d; [lia|]. cbn. rewrite Nat.sub_0_r. reflexivity.
Qed.
Lemma append_child parent c op : append_child_call_trace parent (map line (calls 0 None c)) op = Ok (parent ++ map line (calls 1 (Some op) c)).
Proof.
  rewrite !callsE. unfold append_child_call_trace. cbn [map]. unfold add_delimiter at 1, line at 1, indented. cbn -[map below shift].
  rewrite below_shift, !map_map. unfold add_operator. cbn -[map below shift]. unfold assert_then. cbn -[map below shift]. unfold line at 2, indented. cbn -[map below shift line Nat.leb].
  replace (3 <=? S (S (S (S (String.length (name_of c)))))) with true by (symmetry; apply Nat.leb_le; lia).
  replace (3 <=? S (S (S (S (String.length (value_of c)))))) with true by (symmetry; apply Nat.leb_le; lia). cbn [bind]. do 3 f_equal.
  apply map_ext_in. intros e He. pose proof (below_deep 0 c) as F. rewrite Forall_forall in F. destruct (F e He). apply delimit; assumption.
Qed.
Theorem trace_spec c : get_trace c = Ok (map line (calls 0 None c)).
Proof.
  induction c as [n dn v|l IHl r IHr|l IHl r IHr]; cbn [CallTraceModel.get_trace]; [reflexivity|..];
    rewrite IHl; cbn [bind]; rewrite append_child; cbn [bind]; rewrite IHr; cbn [bind]; rewrite append_child; f_equal;
    rewrite (callsE 0 None); cbn [map below]; rewrite map_app; reflexivity.
Qed.
Lemma default_stateless c : stateless c -> default_name c = get_name c.
Proof. induction c as [n dn v|l IHl r IHr|l IHl r IHr]; cbn; [auto|..]; intros [A C]; rewrite IHl, IHr; auto. Qed.

(* ---- the trace determines the expression ---- *)
Lemma app_inj_l (s t u : string) : (s ++ t)%string = (s ++ u)%string -> t = u.
Proof. induction s; cbn; [auto|]. intros E. injection E. auto. Qed.
Lemma no_blank_default c : plain c = true -> no_blank (name_of c) = true.
Proof. destruct c; cbn; auto. Qed.
(* a line tells its depth, operator and name *)
Lemma indented_inj d1 d2 p1 p2 n1 n2 v1 v2 :
  no_blank n1 = true -> no_blank n2 = true -> (p1 = None <-> d1 = 0) -> (p2 = None <-> d2 = 0) ->
  indented (Entry d1 p1 n1 v1) n1 = indented (Entry d2 p2 n2 v2) n2 -> 
  (forall op, p1 = Some op -> op <> " "%char) -> (forall op, p2 = Some op -> op <> " "%char) -> d1 = d2 /\ p1 = p2 /\ n1 = n2.
Proof.
  intros B1 B2 P1 P2 E O1 O2. unfold indented in E. cbn in E.
  destruct p1 as [o1|], p2 as [o2|].
  - destruct d1 as [|d1]; [destruct P1 as [_ P1]; discriminate (P1 eq_refl)|]. destruct d2 as [|d2]; [destruct P2 as [_ P2]; discriminate (P2 eq_refl)|].
    cbn in E. rewrite !Nat.sub_0_r in E. clear P1 P2. revert d2 E. induction d1 as [|d1 IH]; intros [|d2] E; cbn in E.
    + injection E as -> ->. auto.
    + injection E as -> _. destruct (O1 " "%char eq_refl eq_refl).
    + injection E as <- _. destruct (O2 " "%char eq_refl eq_refl).
    + injection E as E. destruct (IH _ E) as [D [Q N]]. split; [congruence|auto].
  - destruct (d1 - 1); cbn in E; subst n2; discriminate.
  - destruct (d2 - 1); cbn in E; subst n1; discriminate.
  - destruct P1 as [P1 _]. destruct P2 as [P2 _]. rewrite P1, P2 by reflexivity. auto.
Qed.
Definition head_depth_le (d : nat) (l : list entry) : Prop := match l with [] => True | e :: _ => depth e <= d end.
Definition key (e : entry) := (depth e, parent e, e_name e).
Lemma calls_inj c1 : forall c2 d p1 p2 r1 r2, head_depth_le d r1 -> head_depth_le d r2 ->
  map key (calls d p1 c1 ++ r1) = map key (calls d p2 c2 ++ r2) -> shape_of c1 = shape_of c2 /\ map key r1 = map key r2 /\ p1 = p2.
Proof.
  assert (forall d p c r e, head_depth_le d r -> key e = key (Entry (S d) p (name_of c) (value_of c)) -> forall l, map key r = key e :: l -> False) as A.
  { intros d p c [|x r] e H K l E; [discriminate|]. cbn in H, E. injection E as E _. unfold key in K. cbn in K. injection K as K _ _. lia. }
  assert (forall d rest, head_depth_le d rest -> head_depth_le (S d) rest) as Hd. { intros d [|x rest]; cbn; [auto|lia]. }
  assert (forall d q c rest, head_depth_le (S d) (calls (S d) q c ++ rest)) as Hc. { intros. rewrite callsE. cbn. lia. }
  induction c1 as [n dn v|l IHl r IHr|l IHl r IHr]; intros c2 d p1 p2 r1 r2 H1 H2 E.
  - rewrite (callsE d p1), (callsE d p2) in E. cbn [below app map] in E. injection E as Ek En E. 
    destruct c2 as [n2 dn2 v2|l2 r2'|l2 r2'].
    + cbn [below app] in E. cbn in En. subst. auto.
    + exfalso. cbn [below] in E. rewrite <- app_assoc, (callsE (S d) _ l2) in E. cbn [app map] in E.
      eapply A; [exact H1|reflexivity|exact E].
    + exfalso. cbn [below] in E. rewrite <- app_assoc, (callsE (S d) _ l2) in E. cbn [app map] in E.
      eapply A; [exact H1|reflexivity|exact E].
  - rewrite (callsE d p1), (callsE d p2) in E. cbn [below app map] in E. injection E as Ek En E.
    destruct c2 as [n2 dn2 v2|l2 r2'|l2 r2'].
    + exfalso. cbn [below app] in E. rewrite <- app_assoc, (callsE (S d) _ l) in E. cbn [app map] in E. symmetry in E.
      eapply A; [exact H2|reflexivity|exact E].
    + cbn [below] in E. rewrite <- !app_assoc in E. destruct (IHl l2 (S d) _ _ _ _ (Hc _ _ _ _) (Hc _ _ _ _) E) as [Sl [E' _]].
      destruct (IHr r2' (S d) _ _ _ _ (Hd d _ H1) (Hd d _ H2) E') as [Sr [E'' _]]. cbn. rewrite Sl, Sr. auto.
    + cbn [below] in E. rewrite <- !app_assoc in E. destruct (IHl l2 (S d) _ _ _ _ (Hc _ _ _ _) (Hc _ _ _ _) E) as [_ [_ X]]. discriminate.
  - rewrite (callsE d p1), (callsE d p2) in E. cbn [below app map] in E. injection E as Ek En E.
    destruct c2 as [n2 dn2 v2|l2 r2'|l2 r2'].
    + exfalso. cbn [below app] in E. rewrite <- app_assoc, (callsE (S d) _ l) in E. cbn [app map] in E. symmetry in E.
      eapply A; [exact H2|reflexivity|exact E].
    + cbn [below] in E. rewrite <- !app_assoc in E. destruct (IHl l2 (S d) _ _ _ _ (Hc _ _ _ _) (Hc _ _ _ _) E) as [_ [_ X]]. discriminate.
    + cbn [below] in E. rewrite <- !app_assoc in E. destruct (IHl l2 (S d) _ _ _ _ (Hc _ _ _ _) (Hc _ _ _ _) E) as [Sl [E' _]].
      destruct (IHr r2' (S d) _ _ _ _ (Hd d _ H1) (Hd d _ H2) E') as [Sr [E'' _]]. cbn. rewrite Sl, Sr. auto.
Qed.
Definition legible (e : entry) : Prop :=
  no_blank (e_name e) = true /\ (parent e = None <-> depth e = 0) /\ (forall op, parent e = Some op -> op <> " "%char).
Lemma calls_legible d p c : plain c = true -> (p = None <-> d = 0) -> (forall op, p = Some op -> op <> " "%char) -> Forall legible (calls d p c).
Proof.
  revert d p. induction c as [n dn v|l IHl r IHr|l IHl r IHr]; intros d p PL Hp Ho; cbn [CallTraceSpec.calls].
  - constructor; [|constructor]. split; [exact PL|auto].
  - cbn in PL. apply andb_true_iff in PL. destruct PL. constructor; [split; [reflexivity|auto]|].
    apply Forall_app; split; [apply IHl|apply IHr]; auto; try (split; discriminate); intros op E; injection E as <-; discriminate.
  - cbn in PL. apply andb_true_iff in PL. destruct PL. constructor; [split; [reflexivity|auto]|].
    apply Forall_app; split; [apply IHl|apply IHr]; auto; try (split; discriminate); intros op E; injection E as <-; discriminate.
Qed.
Lemma lines_inj l1 : forall l2, Forall legible l1 -> Forall legible l2 -> map (fun e => fst (line e)) l1 = map (fun e => fst (line e)) l2 ->
  map key l1 = map key l2.
Proof.
  induction l1 as [|e1 l1 IH]; intros [|e2 l2] F1 F2 E; try discriminate; [reflexivity|].
  cbn [map] in *. injection E as E0 E. inversion F1 as [|? ? [A1 [A2 A3]] F1']; subst. inversion F2 as [|? ? [B1 [B2 B3]] F2']; subst.
  f_equal; [|apply IH; assumption]. destruct e1 as [d1 p1 n1 v1], e2 as [d2 p2 n2 v2]. cbn in *.
  destruct (indented_inj d1 d2 p1 p2 n1 n2 v1 v2) as [-> [-> ->]]; auto.
Qed.
Theorem trace_inj c1 c2 t1 t2 : plain c1 = true -> plain c2 = true -> get_trace c1 = Ok t1 -> get_trace c2 = Ok t2 ->
  map fst t1 = map fst t2 -> shape_of c1 = shape_of c2.
Proof.
  intros P1 P2 E1 E2 E. rewrite trace_spec in E1, E2. injection E1 as <-. injection E2 as <-. rewrite !map_map in E.
  apply lines_inj in E; try (apply calls_legible; auto; split; auto; discriminate).
  2,3: apply calls_legible; auto; [split; auto|discriminate].
  apply (calls_inj c1 c2 0 None None [] []); cbn; auto. rewrite !app_nil_r. exact E.
Qed.

(* ---- printing ---- *)
Lemma length_app (s t : string) : String.length (s ++ t)%string = String.length s + String.length t.
Proof. induction s; cbn; auto. Qed.
Lemma length_spaces n : String.length (spaces n) = n.
Proof. induction n; cbn; auto. Qed.
Lemma length_setw n s : String.length s <= n -> String.length (setw n s) = n.
Proof. intros H. unfold setw. rewrite length_app, length_spaces. lia. Qed.
Lemma max_fold l : forall m, m <= fold_left (fun m (cv : call_and_value) => if m <? String.length (snd cv) then String.length (snd cv) else m) l m /\
  Forall (fun cv => String.length (snd cv) <= fold_left (fun m (cv : call_and_value) => if m <? String.length (snd cv) then String.length (snd cv) else m) l m) l.
Proof.
  induction l as [|x l IH]; intros m; cbn [fold_left]; [split; constructor|].
  destruct (IH (if m <? String.length (snd x) then String.length (snd x) else m)) as [A F]. split.
  - destruct (Nat.ltb_spec m (String.length (snd x))); lia.
  - constructor; [destruct (Nat.ltb_spec m (String.length (snd x))); lia|exact F].
Qed.
(* every row is its value, padded to a width common to all rows, and its function *)
Theorem print_spec t : exists w rest, print_call_trace t = rest ++ map (fun cv => (setw w (snd cv) ++ setw 100 (fst cv))%string) t /\
  length rest = 2 /\ Forall (fun cv => String.length (snd cv) + 2 <= w /\ String.length (setw w (snd cv)) = w) t.
Proof.
  unfold print_call_trace. destruct (max_fold t 0) as [_ F]. eexists. eexists (_ :: _ :: []). split; [reflexivity|]. split; [reflexivity|].
  eapply Forall_impl; [|exact F]. cbn. intros cv H. unfold call_and_value in *. split; [lia|]. apply length_setw. lia.
Qed.
End P.
