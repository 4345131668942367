From Coq Require Import ZArith String.
From Verif Require Import Base BaseProofs CerealModel CerealSpec CerealProofs SuiteSparseModel SuiteSparseSpec SuiteSparseProofs.
Open Scope string_scope.
Open Scope nat_scope.
Open Scope list_scope.

Section C.
Variable bytes : Type.
Lemma kind_restores k t : holds (bytes := bytes) k t -> restores (c_kind bytes k) t.
Proof.
  destruct k, t; cbn; try contradiction; intros _; eexists; (split; [reflexivity|]); intros rest; reflexivity.
Qed.
Lemma members_round fs (m : members bytes) : typed fs m ->
  exists s, save_members bytes fs m = Ok s /\ forall m0 rest, exists m', load_members bytes fs m0 (s ++ rest) = Ok (m', rest) /\ updated fs m0 m m'.
Proof.
  induction 1 as [|[n k] fs H T IH].
  - exists []. split; [reflexivity|]. intros m0 rest. exists m0. split; [reflexivity|]. intros n. split; [intros []|reflexivity].
  - destruct IH as [s' [E' L']]. cbn [fst snd] in H. destruct (named_restores bytes n _ _ (kind_restores _ _ H)) as [s [E L]].
    exists (s ++ s'). cbn [save_members]. rewrite E. cbn [bind]. rewrite E'. split; [reflexivity|]. intros m0 rest.
    cbn [load_members]. rewrite <- app_assoc, L. cbn [bind fst snd]. destruct (L' (set_member bytes m0 n (m n)) rest) as [m' [-> U]].
    exists m'. split; [reflexivity|]. intros n'. destruct (U n') as [U1 U2]. cbn [map fst]. unfold set_member in U2.
    destruct (in_dec string_dec n' (map fst fs)) as [I|I].
    + split; [intros _; exact (U1 I)|intros N; contradict N; right; exact I].
    + rewrite (U2 I). destruct (String.eqb_spec n' n) as [->|N]; split.
      * reflexivity.
      * intros X. contradict X. left. reflexivity.
      * intros [X|X]; [congruence|contradiction].
      * reflexivity.
Qed.
Lemma methods_round (ms : list (members bytes)) : Forall (typed method_fields) ms ->
  exists s, save_methods bytes ms = Ok s /\ forall ms0 rest, length ms0 = length ms ->
  exists ms', load_methods bytes ms0 (s ++ rest) = Ok (ms', rest) /\
    Forall2 (fun m m' => forall n, In n (map fst method_fields) -> m' n = m n) ms ms'.
Proof.
  induction 1 as [|m ms T F IH].
  - exists []. split; [reflexivity|]. intros [|? ?] rest; [|discriminate]. intros _. exists []. split; [reflexivity|constructor].
  - destruct IH as [s' [E' L']]. destruct (members_round _ _ T) as [s [E L]]. exists ((("", TOpen) :: s) ++ s').
    cbn [save_methods]. rewrite E. cbn [bind]. rewrite E'. split; [reflexivity|]. intros [|m0 ms0] rest; [discriminate|]. intros H.
    cbn [length] in H. apply Nat.succ_inj in H. cbn [load_methods app next]. cbn [String.eqb bind fst snd]. rewrite <- app_assoc.
    destruct (L m0 (s' ++ rest)) as [m' [-> U]]. cbn [bind fst snd]. destruct (L' ms0 rest H) as [ms' [-> U']]. cbn [bind fst snd].
    exists (m' :: ms'). split; [reflexivity|]. constructor; [|exact U']. intros n I. apply (proj1 (U n) I).
Qed.
Lemma updated_app f g (m0 m m1 m2 : members bytes) : updated f m0 m m1 -> updated g m1 m m2 -> updated (f ++ g) m0 m m2.
Proof.
  intros U V n. destruct (U n) as [U1 U2], (V n) as [V1 V2]. rewrite map_app, in_app_iff.
  destruct (in_dec string_dec n (map fst g)) as [I|I]; [split; [auto|intros X; contradict X; auto]|].
  rewrite (V2 I). split; [intros [?|?]; [auto|contradiction]|auto].
Qed.
Lemma common_round old (cc : common bytes) : whole_common old cc ->
  exists s, save_common bytes old cc = Ok s /\ forall cc0 rest, length (c_methods bytes cc0) = length (c_methods bytes cc) ->
  exists cc', load_common bytes old cc0 (s ++ rest) = Ok (cc', rest) /\
    updated (common_fields old) (c_members bytes cc0) (c_members bytes cc) (c_members bytes cc') /\
    Forall2 (fun m m' => forall n, In n (map fst method_fields) -> m' n = m n) (c_methods bytes cc) (c_methods bytes cc').
Proof.
  intros [T G M]. unfold common_fields, typed in T. rewrite !Forall_app in T. destruct T as [T1 [T3 [T4 [T5 T6]]]].
  destruct (members_round _ _ T1) as [s1 [E1 L1]]. destruct (methods_round _ M) as [s2 [E2 L2]].
  destruct (members_round _ _ T3) as [s3 [E3 L3]]. destruct (members_round _ _ T4) as [s4 [E4 L4]].
  destruct (members_round _ _ T5) as [s5 [E5 L5]]. destruct (members_round _ _ T6) as [s6 [E6 L6]].
  unfold save_common. rewrite E1, E2, E3, E4. cbn [bind]. rewrite G. cbn [is_zero assert_then]. rewrite E5. cbn [bind]. rewrite E6. cbn [bind].
  eexists. split; [reflexivity|]. intros cc0 rest HL. unfold load_common. rewrite <- !app_assoc.
  change load_before with save_before. change load_ordering with save_ordering.
  change (load_statistics old) with (save_statistics old). change load_timings with save_timings.
  destruct (L1 (c_members bytes cc0) (s2 ++ s3 ++ s4 ++ s5 ++ s6 ++ rest)) as [m1 [-> U1]]. cbn [bind fst snd].
  destruct (L2 (c_methods bytes cc0) (s3 ++ s4 ++ s5 ++ s6 ++ rest) HL) as [ms [-> U2]]. cbn [bind fst snd].
  destruct (L3 m1 (s4 ++ s5 ++ s6 ++ rest)) as [m3 [-> U3]]. cbn [bind fst snd].
  destruct (L4 m3 (s5 ++ s6 ++ rest)) as [m4 [-> U4]]. cbn [bind fst snd].
  destruct (L5 m4 (s6 ++ rest)) as [m5 [-> U5]]. cbn [bind fst snd].
  assert (m5 "cc.useGPU" = TInt 0%Z) as ->. { destruct (U5 "cc.useGPU") as [X _]. rewrite X by (left; reflexivity). exact G. }
  cbn [is_zero assert_then]. destruct (L6 m5 rest) as [m6 [-> U6]]. cbn [bind fst snd].
  exists (Common bytes m6 ms). split; [reflexivity|]. cbn [c_members c_methods]. split; [|exact U2].
  unfold common_fields. eapply updated_app; [exact U1|]. eapply updated_app; [exact U3|]. eapply updated_app; [exact U4|].
  eapply updated_app; [exact U5|exact U6].
Qed.
End C.

Section Q.
Variable bytes : Type.
Variable B : Type.
Variable text : bool.
Variables enc dec : bytes -> bytes.
Hypothesis Hb64 : base64_ok enc dec.
Variable zc : list B -> bytes.
Variable zd : bytes -> nat -> option (list B).
Hypothesis Hz : zstd_ok zc zd.
Variable mz : bool.
Variable unset : nat -> list B.
Hypothesis Hunset : forall n, length (unset n) = n.
Variable old : bool.
Variable E : Type.
Variable zero : E.
Variable plus : E -> E -> E.
Hypothesis Hplus : forall x, plus x zero = x.
Variable gc : list (cell E) -> bytes.
Variable gd : bytes -> option (list (cell E)).
Hypothesis Hg : gzip_ok gc gd.
Notation save_q := (save_spqr bytes B text enc zc old E gc).
Notation load_q := (load_spqr bytes B text dec zd mz unset old E zero plus gd).
Notation spq := (spqr bytes B).

Lemma round_prefix name b b0 n rest : length b = n -> n <= length b0 ->
  exists a, decode_array bytes B text dec zd name (Some b0) n (array_stream bytes B text enc zc name b ++ rest) = Ok (a, rest) /\
    prefix n a = prefix n (Some b).
Proof.
  intros H H0. rewrite (decode_ok bytes B text enc dec Hb64 zc zd Hz) by lia. eexists. split; [reflexivity|].
  unfold prefix. rewrite app_length. destruct (Nat.ltb_spec (length b + length (skipn n b0)) n); [lia|].
  destruct (Nat.ltb_spec (length b) n); [lia|]. rewrite firstn_app, H, Nat.sub_diag. cbn. rewrite app_nil_r. reflexivity.
Qed.

(* the matrix R that is loaded, by the entries: the transpose of the first half of those that were stored *)
Lemma spqr_round (q : spq (sparse E)) (cc0 : common bytes) :
  whole_spqr old q -> wf_sparse (q_R _ _ _ q) ->
  flipped_inside (q_R _ _ _ q) ((length (stored E (q_R _ _ _ q)) + 1) / 2) = true ->
  mz = true \/ (forall m, q_cR _ _ _ q = Some m \/ q_H _ _ _ q = Some m -> no_empty_array m) /\
               (forall m, q_HTau _ _ _ q = Some m -> 0 < d_nzmax (dh B m)) ->
  length (c_methods bytes cc0) = length (c_methods bytes (q_cc _ _ _ q)) ->
  exists s, save_q q = Ok s /\ forall rest, exists q', load_q cc0 (s ++ rest) = Ok (q', rest) /\ same_spqr old cc0 q q' /\
    (exists f, q_R _ _ _ q' = (srows E (q_R _ _ _ q), scols E (q_R _ _ _ q), f) /\
       forall i j, f i j = sum_at E zero plus (firstn (length (stored E (q_R _ _ _ q)) / 2) (stored E (q_R _ _ _ q))) j i).
Proof.
  intros [Wcc [cR [EcR [WcR [Eb [EEb LEb]]]]] [H [EH WH]] [HT [EHT WHT]] [Pb [EPb LPb]]] WR FR Hne Hm.
  destruct (sparse_spec bytes text enc dec Hb64 E zero plus Hplus gc gd Hg _ WR) as [s3 [E3 L3]].
  destruct (common_round bytes old _ Wcc) as [s5 [E5 L5]].
  destruct (sparse_round bytes B text enc dec Hb64 zc zd Hz mz unset Hunset cR WcR) as [s7 [E7 L7]].
  { destruct Hne as [?|[Hne _]]; [left; assumption|right; apply Hne; left; exact EcR]. }
  destruct (sparse_round bytes B text enc dec Hb64 zc zd Hz mz unset Hunset H WH) as [s8 [E8 L8]].
  { destruct Hne as [?|[Hne _]]; [left; assumption|right; apply Hne; right; exact EH]. }
  destruct (dense_round bytes B text enc dec Hb64 zc zd Hz mz unset Hunset HT WHT) as [s9 [E9 L9]].
  { destruct Hne as [?|[_ Hne]]; [left; assumption|right; apply Hne; exact EHT]. }
  destruct q as [b1 b2 b3 b4 i1 i2 i3 d1 qR rk cc th rows qcR qH qHT qE qP].
  cbn [q_isInitialized q_analysisIsOk q_factorizationIsOk q_isRUpToDate q_info q_ordering q_allow_tol q_tolerance q_R q_rank q_cc
       q_useDefaultThreshold q_rows q_cR q_H q_HTau q_E q_HPinv] in *. subst qcR qH qHT qE qP.
  assert (restores (c_pair bytes (named bytes "Base::m_isInitialized" (c_bool bytes)) (c_pair bytes (named bytes "Base::m_analysisIsOk" (c_bool bytes))
               (c_pair bytes (named bytes "Base::m_factorizationIsOk" (c_bool bytes)) (named bytes "Base::m_isRUpToDate" (c_bool bytes)))))
          (b1, (b2, (b3, b4)))) as [s1 [E1 L1]].
  { repeat apply pair_restores; apply named_restores, bool_restores. }
  assert (restores (c_pair bytes (named bytes "Base::m_info" (c_int bytes)) (c_pair bytes (named bytes "Base::m_ordering" (c_int bytes))
      (c_pair bytes (named bytes "Base::m_allow_tol" (c_int bytes)) (named bytes "Base::m_tolerance" (c_double bytes)))))
          (i1, (i2, (i3, d1)))) as [s2 [E2 L2]].
  { repeat apply pair_restores; apply named_restores; first [apply int_restores|apply double_restores]. }
  destruct (named_restores bytes "Base::m_rank" _ _ (int_restores bytes rk)) as [s4 [E4 L4]].
  assert (restores (c_pair bytes (named bytes "Base::m_useDefaultThreshold" (c_bool bytes)) (named bytes "Base::m_rows" (c_nat bytes)))
          (th, rows)) as [s6 [E6 L6]].
  { apply pair_restores; apply named_restores; first [apply bool_restores|apply nat_restores]. }
  unfold save_spqr.
  cbn [q_isInitialized q_analysisIsOk q_factorizationIsOk q_isRUpToDate q_info q_ordering q_allow_tol q_tolerance q_R q_rank q_cc
       q_useDefaultThreshold q_rows q_cR q_H q_HTau q_E q_HPinv].
  rewrite E1, E2. cbn [bind]. unfold cell_codec_save. rewrite E3. cbn [bind]. rewrite E4, E5, E6. cbn [bind deref].
  rewrite E7. cbn [bind]. rewrite E8. cbn [bind]. rewrite E9. cbn [bind]. unfold integer_size.
  rewrite (encode_ok bytes B text enc zc "m_E" Eb) by lia. cbn [bind].
  rewrite (encode_ok bytes B text enc zc "m_HPinv" Pb) by lia. cbn [bind].
  rewrite !firstn_all2 by lia.
  eexists. split; [reflexivity|]. intros rest.
  unfold load_spqr, open_node. rewrite <- !app_assoc. cbn [app]. rewrite <- ?app_assoc.
  rewrite L1. cbn [bind fst snd]. rewrite L2. cbn [bind fst snd]. unfold enter_node at 1. cbn [next]. rewrite String.eqb_refl. cbn [bind fst snd].
  unfold cell_codec_load. match goal with |- context [CerealModel.load_sparse _ _ _ _ _ _ _ (s3 ++ ?r)] => destruct (L3 r) as [L3a _] end.
  destruct (L3a FR) as [f [-> Hf]]. cbn [bind fst snd]. rewrite L4. cbn [bind fst snd].
  unfold enter_node at 1. cbn [next]. rewrite String.eqb_refl. cbn [bind fst snd].
  match goal with |- context [load_common _ _ _ (s5 ++ ?r)] => destruct (L5 cc0 r Hm) as [cc' [-> [U1 U2]]] end. cbn [bind fst snd].
  rewrite L6. cbn [bind fst snd].
  unfold enter_node at 1. cbn [next]. rewrite String.eqb_refl. cbn [bind fst snd].
  match goal with |- context [SuiteSparseModel.load_sparse _ _ _ _ _ _ _ ?d (s7 ++ ?r)] => destruct (L7 d r eq_refl) as [cR' [-> Sc]] end. cbn [bind fst snd].
  unfold enter_node at 1. cbn [next]. rewrite String.eqb_refl. cbn [bind fst snd].
  match goal with |- context [SuiteSparseModel.load_sparse _ _ _ _ _ _ _ ?d (s8 ++ ?r)] => destruct (L8 d r eq_refl) as [H' [-> Sh]] end. cbn [bind fst snd].
  unfold enter_node at 1. cbn [next]. rewrite String.eqb_refl. cbn [bind fst snd].
  rewrite L9 by reflexivity. cbn [bind fst snd].
  assert (sh B cR' = sh B cR) as -> by apply Sc. unfold cholmod_malloc, integer_size.
  match goal with |- context [decode_array _ _ _ _ _ "m_E" (Some ?b0) ?n (_ ++ ?r)] =>
    destruct (round_prefix "m_E" Eb b0 n r LEb) as [aE [-> PE]] end. { rewrite Hunset. lia. } cbn [bind fst snd].
  match goal with |- context [decode_array _ _ _ _ _ "m_HPinv" (Some ?b0) ?n (_ ++ ?r)] =>
    destruct (round_prefix "m_HPinv" Pb b0 n r LPb) as [aP [-> PP]] end. { rewrite Hunset. lia. } cbn [bind fst snd].
  eexists. split; [reflexivity|]. split; [|exists f; split; [reflexivity|exact Hf]].
  constructor; cbn [q_isInitialized q_analysisIsOk q_factorizationIsOk q_isRUpToDate q_info q_ordering q_allow_tol q_tolerance q_R q_rank q_cc
       q_useDefaultThreshold q_rows q_cR q_H q_HTau q_E q_HPinv]; try reflexivity; try assumption.
  - exists cR, cR'. auto.
  - exists H, H'. auto.
Qed.
Lemma same_matrixR (view : cholmod_sparse B -> eigen_sparse E) cc0 (q : spq (sparse E)) (q' : spq (eigen_sparse E)) :
  (forall m m', same_sparse m m' -> view m' = view m) -> same_spqr old cc0 q q' ->
  q_isRUpToDate _ _ _ q = false ->
  matrixR bytes B E view (fun R => R) q' = matrixR bytes B E view (eigen_view E zero plus) q.
Proof.
  intros Hv S F. unfold matrixR. rewrite (sq_isRUpToDate _ _ _ _ S), F. destruct (sq_cR _ _ _ _ S) as [m [m' [-> [-> [Sm _]]]]].
  cbn. rewrite (Hv _ _ Sm). reflexivity.
Qed.
Lemma save_default info ordering allow_tol tolerance R0 rank cc threshold rows :
  whole_common old cc -> 
  save_q (default_spqr bytes B E info ordering allow_tol tolerance R0 rank cc threshold rows) = UB.
Proof.
  intros Wcc. destruct (common_round bytes old _ Wcc) as [s5 [E5 _]]. unfold save_spqr. unfold default_spqr.
  cbn [q_isInitialized q_analysisIsOk q_factorizationIsOk q_isRUpToDate q_info q_ordering q_allow_tol q_tolerance q_R q_rank q_cc
       q_useDefaultThreshold q_rows q_cR q_H q_HTau q_E q_HPinv].
  cbn [save c_pair named c_bool c_int c_double c_nat bind fst snd]. unfold cell_codec_save, CerealModel.save_sparse.
  cbn [save c_pair named c_bool c_int c_double c_nat c_bytes bind fst snd]. rewrite E5. reflexivity.
Qed.
End Q.
