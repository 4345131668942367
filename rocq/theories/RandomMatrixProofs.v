From Coq Require Import QArith Qround FinFun.
From Verif Require Import Base BaseProofs RandomMatrixModel RandomMatrixSpec.
Open Scope nat_scope.

Section Proofs.
Context {G V : Type}.
Variable uniform : Z -> Z -> G -> Z * G.
Variable uniform_real : V -> V -> G -> V * G.
Variable le : V -> V -> bool.
Notation free_position := (@free_position G uniform).
Notation triplets := (@triplets G V uniform uniform_real).

Definition positions (cols : Z) (ts : list (Z * Z * V)) : list Z := map (fun t => fst (fst t) * cols + snd (fst t))%Z ts.

Lemma existsb_In z l : existsb (Z.eqb z) l = true <-> In z l.
Proof.
  rewrite existsb_exists. split.
  - intros (x & I & E). apply Z.eqb_eq in E. now subst.
  - intros I. exists z. split; [exact I|apply Z.eqb_refl].
Qed.
Lemma pos_range rows cols r c : (0 <= r < rows -> 0 <= c < cols -> 0 <= r * cols + c < rows * cols)%Z.
Proof. nia. Qed.
Lemma pos_inj cols r c r' c' : (0 <= c < cols -> 0 <= c' < cols -> r * cols + c = r' * cols + c' -> r = r' /\ c = c')%Z.
Proof.
  intros H H' E. assert (r = r') as ->; [|lia].
  destruct (Z.lt_trichotomy r r') as [L|[L|L]]; [exfalso|exact L|exfalso]; nia.
Qed.

Lemma free_spec : in_range uniform uniform_real le -> forall fuel rows cols taken g r c g',
  (1 <= rows -> 1 <= cols)%Z -> (1 <= rows)%Z ->
  free_position fuel rows cols taken g = Some (r, c, g') ->
  (0 <= r < rows)%Z /\ (0 <= c < cols)%Z /\ ~ In (r * cols + c)%Z taken.
Proof.
  intros [I _]. induction fuel; cbn; intros rows cols taken g r c g' Hc Hr; [discriminate|]. specialize (Hc Hr).
  pose proof (I 0%Z (rows - 1)%Z g ltac:(lia)) as Ir. destruct (uniform 0 (rows - 1) g) as [r1 g1]. cbn in Ir.
  pose proof (I 0%Z (cols - 1)%Z g1 ltac:(lia)) as Ic. destruct (uniform 0 (cols - 1) g1) as [c1 g2]. cbn in Ic.
  destruct (existsb (Z.eqb (r1 * cols + c1)%Z) taken) eqn:E.
  - intros F. apply (IHfuel rows cols taken g2 r c g'); auto.
  - intros F. injection F as <- <- <-. split; [lia|]. split; [lia|]. intros X. apply existsb_In in X. congruence.
Qed.

Lemma triplets_spec : in_range uniform uniform_real le -> forall n fuel rows cols lo hi taken g ts g',
  (1 <= rows)%Z -> (1 <= cols)%Z -> le lo hi = true ->
  triplets fuel n rows cols lo hi taken g = Some (ts, g') ->
  length ts = n /\
  Forall (fun t => (0 <= fst (fst t) < rows)%Z /\ (0 <= snd (fst t) < cols)%Z /\ le lo (snd t) = true /\ le (snd t) hi = true) ts /\
  NoDup (positions cols ts) /\ (forall p, In p (positions cols ts) -> ~ In p taken).
Proof.
  intros I. induction n; cbn; intros fuel rows cols lo hi taken g ts g' Hr Hc Hl.
  - intros F. injection F as <- <-. repeat split; auto; try constructor.
  - destruct (free_position fuel rows cols taken g) as [[[r c] g1]|] eqn:F; [|discriminate].
    destruct (free_spec I fuel rows cols taken g r c g1 ltac:(auto) Hr F) as (R & C & N).
    pose proof (proj2 I lo hi g1 Hl) as L. destruct (uniform_real lo hi g1) as [v g2]. cbn in L.
    destruct (triplets fuel n rows cols lo hi ((r * cols + c)%Z :: taken) g2) as [[rest g3]|] eqn:T; [|discriminate].
    intros X. injection X as <- <-. destruct (IHn _ _ _ _ _ _ _ _ _ Hr Hc Hl T) as (Ln & Fa & Nd & Dj). cbn. repeat split; auto.
    + constructor; auto. intros X. apply (Dj _ X). now left.
    + intros p [<-|X]; auto. intros Y. apply (Dj _ X). now right.
Qed.

(* no more elements than positions *)
Lemma bounded_length (l : list Z) (n : Z) : (0 <= n)%Z -> NoDup l -> Forall (fun p => (0 <= p < n)%Z) l -> (Z.of_nat (length l) <= n)%Z.
Proof.
  intros H0 Nd Fa. assert (L : length l <= length (map Z.of_nat (seq 0 (Z.to_nat n)))).
  { apply NoDup_incl_length; [exact Nd|]. intros p I. rewrite Forall_forall in Fa. specialize (Fa p I). apply in_map_iff.
    exists (Z.to_nat p). split; [lia|]. apply in_seq. lia. }
  rewrite map_length, seq_length in L. lia.
Qed.
Lemma NoDup_append (A : Type) (l m : list A) : NoDup l -> NoDup m -> (forall x, In x l -> ~ In x m) -> NoDup (l ++ m).
Proof.
  induction 1; cbn; auto. intros Nm D. constructor.
  - rewrite in_app_iff. intros [X|X]; [contradiction|]. apply (D x); [now left|exact X].
  - apply IHNoDup; auto.
Qed.
Lemma triplets_room : in_range uniform uniform_real le -> forall n fuel rows cols lo hi taken g ts g',
  (1 <= rows)%Z -> (1 <= cols)%Z -> le lo hi = true -> NoDup taken -> Forall (fun p => (0 <= p < rows * cols)%Z) taken ->
  triplets fuel n rows cols lo hi taken g = Some (ts, g') -> (Z.of_nat (n + length taken) <= rows * cols)%Z.
Proof.
  intros I n fuel rows cols lo hi taken g ts g' Hr Hc Hl Nd Fa T.
  destruct (triplets_spec I n fuel rows cols lo hi taken g ts g' Hr Hc Hl T) as (Ln & Ft & Nt & Dj).
  replace (n + length taken) with (length (positions cols ts ++ taken)).
  2: { unfold positions. rewrite app_length, map_length. lia. }
  apply bounded_length; [nia|apply NoDup_append; auto|]. apply Forall_app. split; [|exact Fa].
  unfold positions. rewrite Forall_map. eapply Forall_impl; [|exact Ft]. cbn. intros [[r c] v] (A & B & _). cbn in *.
  now apply pos_range.
Qed.

(* more fuel changes nothing *)
Lemma free_more fuel fuel' rows cols taken g x : fuel <= fuel' -> free_position fuel rows cols taken g = Some x ->
  free_position fuel' rows cols taken g = Some x.
Proof.
  revert fuel' g. induction fuel; cbn; intros fuel' g L; [discriminate|]. destruct fuel' as [|fuel']; [lia|]. cbn.
  destruct (uniform 0 (rows - 1) g) as [r g1]. destruct (uniform 0 (cols - 1) g1) as [c g2].
  destruct (existsb _ taken); auto. apply IHfuel. lia.
Qed.
Lemma triplets_more n : forall fuel fuel' rows cols lo hi taken g x, fuel <= fuel' ->
  triplets fuel n rows cols lo hi taken g = Some x -> triplets fuel' n rows cols lo hi taken g = Some x.
Proof.
  induction n; cbn; intros fuel fuel' rows cols lo hi taken g x L; auto.
  destruct (free_position fuel rows cols taken g) as [[[r c] g1]|] eqn:F; [|discriminate].
  rewrite (free_more _ _ _ _ _ _ _ L F). destruct (uniform_real lo hi g1) as [v g2].
  destruct (triplets fuel n rows cols lo hi _ g2) as [[rest g3]|] eqn:T; [|discriminate].
  now rewrite (IHn _ _ _ _ _ _ _ _ _ L T).
Qed.

Lemma free_kth rows cols taken k : forall g r c, kth_pair uniform rows cols k g = (r, c) -> ~ In (r * cols + c)%Z taken ->
  exists x, free_position (S k) rows cols taken g = Some x.
Proof.
  induction k; intros g r c; cbn [kth_pair RandomMatrixModel.free_position]; destruct (uniform 0 (rows - 1) g) as [r1 g1];
    destruct (uniform 0 (cols - 1) g1) as [c1 g2].
  - intros E N. injection E as -> ->. destruct (existsb _ taken) eqn:X; [apply existsb_In in X; contradiction|]. eauto.
  - intros E N. destruct (existsb _ taken) eqn:X; [|eauto]. exact (IHk g2 r c E N).
Qed.
(* a free position exists while there is room *)
Lemma free_exists rows cols taken : (1 <= rows)%Z -> (1 <= cols)%Z -> (Z.of_nat (length taken) < rows * cols)%Z ->
  exists r c, (0 <= r < rows)%Z /\ (0 <= c < cols)%Z /\ ~ In (r * cols + c)%Z taken.
Proof.
  intros Hr Hc L. set (all := map Z.of_nat (seq 0 (Z.to_nat (rows * cols)))).
  assert (X : exists p, In p all /\ ~ In p taken).
  { destruct (Forall_Exists_dec (fun p => In p taken) (fun p => in_dec Z.eq_dec p taken) all) as [F|F].
    - exfalso. assert (Nd : NoDup all). { unfold all. apply Injective_map_NoDup; [intros a b; lia|apply seq_NoDup]. }
      pose proof (NoDup_incl_length Nd (proj1 (Forall_forall _ _) F)) as Le. unfold all in Le.
      rewrite map_length, seq_length in Le. lia.
    - apply Exists_exists in F. exact F. }
  destruct X as (p & I & N). unfold all in I. apply in_map_iff in I. destruct I as (k & <- & I). apply in_seq in I.
  exists (Z.of_nat k / cols)%Z, (Z.of_nat k mod cols)%Z.
  pose proof (Z.mod_pos_bound (Z.of_nat k) cols ltac:(lia)). split; [split|split; [lia|]].
  - apply Z.div_pos; lia.
  - apply Z.div_lt_upper_bound; [lia|]. nia.
  - replace (Z.of_nat k / cols * cols + Z.of_nat k mod cols)%Z with (Z.of_nat k); [exact N|].
    pose proof (Z.div_mod (Z.of_nat k) cols ltac:(lia)). lia.
Qed.
Lemma triplets_return rows cols lo hi : (1 <= rows)%Z -> (1 <= cols)%Z -> fair uniform rows cols ->
  forall n taken g, (Z.of_nat (n + length taken) <= rows * cols)%Z ->
  exists fuel x, triplets fuel n rows cols lo hi taken g = Some x.
Proof.
  intros Hr Hc Fr. induction n; intros taken g L.
  - exists 0. cbn. eauto.
  - destruct (free_exists rows cols taken Hr Hc ltac:(lia)) as (r & c & R & C & N).
    destruct (Fr g r c R C) as [k K]. destruct (free_kth rows cols taken k g r c K N) as [[[r1 c1] g1] F].
    destruct (uniform_real lo hi g1) as [v g2] eqn:U.
    destruct (IHn ((r1 * cols + c1)%Z :: taken) g2) as (fuel & [rest g3] & T); [cbn; lia|].
    exists (max (S k) fuel). eexists. cbn [RandomMatrixModel.triplets].
    rewrite (free_more (S k) (max (S k) fuel) _ _ _ _ _ ltac:(lia) F), U.
    rewrite (triplets_more n fuel (max (S k) fuel) _ _ _ _ _ _ _ ltac:(lia) T). reflexivity.
Qed.

Section Matrix.
Variable zero : V.
Variable plus : V -> V -> V.
Hypothesis plus_zero : forall v, plus zero v = v.
Notation entry := (entry zero plus).
Lemma NoDup_positions cols ts : NoDup (positions cols ts) -> NoDup (map fst ts).
Proof.
  induction ts as [|[[r c] v] ts IH]; cbn; intros N; constructor; inversion N; subst; auto.
  intros X. apply H1. apply in_map_iff in X. destruct X as [[[r' c'] v'] [E I]]. cbn in E. injection E as -> ->.
  unfold positions. apply in_map_iff. exists (r, c, v'). auto.
Qed.
Lemma entry_in ts r c v : NoDup (map fst ts) -> In (r, c, v) ts -> entry ts r c = v.
Proof.
  unfold RandomMatrixModel.entry. enough (X : NoDup (map fst ts) -> In (r, c, v) ts ->
    filter (fun t => Z.eqb (fst (fst t)) r && Z.eqb (snd (fst t)) c) ts = [(r, c, v)]).
  { intros N I. rewrite X by assumption. cbn. apply plus_zero. }
  induction ts as [|[[r' c'] v'] ts IH]; cbn; intros N I; [contradiction|]. inversion N; subst. destruct I as [E|I].
  - injection E as -> -> ->. rewrite !Z.eqb_refl. cbn. f_equal.
    assert (Y : forall t, In t ts -> Z.eqb (fst (fst t)) r && Z.eqb (snd (fst t)) c = false).
    { intros [[a b] w] J. cbn. destruct (Z.eqb_spec a r); [|reflexivity]. destruct (Z.eqb_spec b c); [|reflexivity]. subst.
      exfalso. apply H1. apply in_map_iff. exists (r, c, w). auto. }
    clear -Y. induction ts; cbn; auto. rewrite Y by now left. apply IHts. intros. apply Y. now right.
  - destruct (Z.eqb_spec r' r) as [->|]; cbn; auto. destruct (Z.eqb_spec c' c) as [->|]; cbn; auto. exfalso. apply H1.
    apply in_map_iff. exists (r, c, v). auto.
Qed.
Lemma entry_out ts r c : ~ In (r, c) (map fst ts) -> entry ts r c = zero.
Proof.
  unfold RandomMatrixModel.entry. intros N.
  replace (filter _ ts) with (@nil (Z * Z * V)); [reflexivity|]. symmetry.
  induction ts as [|[[r' c'] v'] ts IH]; cbn; auto.
  destruct (Z.eqb_spec r' r) as [->|]; cbn. 2: { apply IH. intros X; apply N; now right. }
  destruct (Z.eqb_spec c' c) as [->|]; cbn. 2: { apply IH. intros X; apply N; now right. }
  exfalso. apply N. now left.
Qed.
End Matrix.
End Proofs.
