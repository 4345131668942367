From Coq Require Import ZArith String.
From Verif Require Import Base BaseProofs CerealModel CerealSpec CerealProofs SuiteSparseModel SuiteSparseSpec.
Open Scope string_scope.
Open Scope nat_scope.
Open Scope list_scope.

Section P.
Variable bytes : Type.
Variable B : Type.
Variable text : bool.
Variables enc dec : bytes -> bytes.
Hypothesis Hb64 : base64_ok enc dec.
Variable zc : list B -> bytes.
Variable zd : bytes -> nat -> option (list B).
Hypothesis Hz : zstd_ok zc zd.
Variable mz : bool.
Variable unset : nat -> list B.
Hypothesis Hunset : forall n, length (unset n) = n.

Notation encode := (encode_array bytes B text enc zc).
Notation decode := (decode_array bytes B text dec zd).
Notation realloc := (suitesparse_cereal_realloc B mz unset).
Notation save_sp := (SuiteSparseModel.save_sparse bytes B text enc zc).
Notation load_sp := (SuiteSparseModel.load_sparse bytes B text dec zd mz unset).
Notation save_de := (SuiteSparseModel.save_dense bytes B text enc zc).
Notation load_de := (SuiteSparseModel.load_dense bytes B text dec zd mz unset).

Definition payload_of (content : list B) : bytes := if text then enc (zc content) else zc content.
Definition array_stream (name : string) (content : list B) : stream bytes :=
  [(name, TOpen); ("", TBytes (payload_of content))].
Lemma encode_ok name b n : n <= length b -> encode name (Some b) n = Ok (array_stream name (firstn n b)).
Proof.
  intros H. unfold encode_array. destruct (Nat.eqb_spec n 0) as [->|N].
  - reflexivity.
  - destruct (Nat.ltb_spec (length b) n); [lia|]. reflexivity.
Qed.
Lemma decode_ok name b content rest n : length content = n -> n <= length b ->
  decode name (Some b) n (array_stream name content ++ rest) = Ok (Some (content ++ skipn n b), rest).
Proof.
  intros L H. unfold decode_array, array_stream. cbn [app load named next c_bytes bind]. rewrite String.eqb_refl. cbn.
  assert ((if text then dec (payload_of content) else payload_of content) = zc content) as ->.
  { unfold payload_of. destruct text; [apply Hb64|reflexivity]. }
  rewrite <- L at 1. rewrite Hz. destruct (Nat.ltb_spec (length b) n); [lia|]. reflexivity.
Qed.
Lemma realloc_ok count size : mz = true \/ 0 < count * size -> realloc count size = Ok (Some (unset (count * size))).
Proof.
  intros H. unfold suitesparse_cereal_realloc. assert ((0 <? count * size) || mz = true) as ->; [|reflexivity].
  destruct H as [->|H]; [apply Bool.orb_true_r|]. apply Nat.ltb_lt in H. rewrite H. reflexivity.
Qed.
(* an array that is encoded from, and decoded into, exactly its size *)
Lemma array_round name b b0 n rest : length b = n -> length b0 = n ->
  encode name (Some b) n = Ok (array_stream name b) /\ decode name (Some b0) n (array_stream name b ++ rest) = Ok (Some b, rest).
Proof.
  intros H H0. split.
  - rewrite encode_ok by lia. rewrite firstn_all2 by lia. reflexivity.
  - rewrite decode_ok by lia. rewrite skipn_all2 by lia. rewrite app_nil_r. reflexivity.
Qed.
Lemma header_restores h : restores (c_sparse_header bytes) h.
Proof.
  apply iso_restores; [destruct h; reflexivity|]. repeat apply pair_restores;
    apply named_restores; first [apply nat_restores|apply int_restores].
Qed.
Lemma dense_header_restores h : restores (c_dense_header bytes) h.
Proof.
  apply iso_restores; [destruct h; reflexivity|]. repeat apply pair_restores;
    apply named_restores; first [apply nat_restores|apply int_restores].
Qed.
Lemma known h : itype h = 0%Z \/ itype h = 2%Z -> known_itype (itype h) = true /\
  get_p_element_size_bytes (itype h) = Ok (index_bytes (itype h)) /\ get_integer_size_bytes (itype h) = Ok (index_bytes (itype h)).
Proof. intros [->| ->]; repeat split. Qed.
Lemma index_pos t : 0 < index_bytes t. Proof. unfold index_bytes. destruct (t =? 2)%Z; lia. Qed.
Lemma entry_pos t : 0 < entry_bytes t. Proof. unfold entry_bytes. destruct (t =? 0)%Z; lia. Qed.
Lemma packedE h : is_packed h = true \/ is_packed h = false /\ packed h = 0%Z.
Proof. unfold is_packed. destruct (Z.eqb_spec (packed h) 0); auto. Qed.

Definition sparse_stream (s1 : stream bytes) (h : sparse_header) (p i nz x : list B) : stream bytes :=
  s1 ++ array_stream "m.p" p ++ array_stream "m.i" i ++
  (if is_packed h then [] else array_stream "m.nz" nz) ++ array_stream "m.x" x.
Lemma sparse_round m : whole_sparse m -> mz = true \/ no_empty_array m ->
  exists s, save_sp m = Ok s /\ forall d rest, s_z B d = None ->
  exists m', load_sp d (s ++ rest) = Ok (m', rest) /\ same_sparse m m'.
Proof.
  intros [Hi Hx [p [Ep Lp]] [i [Ei Li]] Hnz [x [Ex Lx]] Hzz] HE.
  destruct (known _ Hi) as [K [K1 K2]]. destruct (header_restores (sh B m)) as [s1 [E1 L1]].
  assert (get_num_x_elements (nzmax (sh B m)) (xtype (sh B m)) = nzmax (sh B m)) as EX.
  { unfold get_num_x_elements, CHOLMOD_COMPLEX. destruct (Z.eqb_spec (xtype (sh B m)) 2); [contradiction|]. lia. }
  unfold SuiteSparseModel.save_sparse. rewrite K, E1, K1, K2. cbn [assert_then bind]. rewrite EX, Ep, Ei, Ex, Hzz.
  change (get_element_size_bytes (dtype (sh B m))) with (entry_bytes (dtype (sh B m))).
  assert (exists nz, (if negb (is_null B (s_nz B m)) && negb (is_packed (sh B m))
     then encode "m.nz" (s_nz B m) (ncol (sh B m) * index_bytes (itype (sh B m))) else Ok []) =
     Ok (if is_packed (sh B m) then [] else array_stream "m.nz" nz) /\
     (is_packed (sh B m) = false -> s_nz B m = Some nz /\ length nz = ncol (sh B m) * index_bytes (itype (sh B m)))) as [nz [Enz Fnz]].
  { destruct (packedE (sh B m)) as [P|[P P0]].
    - exists []. rewrite P, Bool.andb_false_r. split; [reflexivity|discriminate].
    - destruct (Hnz P0) as [nz [Enz Lnz]]. exists nz. rewrite P, Enz. split; [|auto]. cbn [is_null negb andb].
      apply (array_round "m.nz" nz nz _ []); assumption. }
  rewrite Enz. destruct (array_round "m.p" p p _ [] Lp Lp) as [-> _]. destruct (array_round "m.i" i i _ [] Li Li) as [-> _].
  cbn [bind is_null negb]. destruct (array_round "m.x" x x _ [] Lx Lx) as [-> _]. cbn [bind assert_then].
  eexists. split; [reflexivity|]. intros d rest Hd.
  exists (SuiteSparseModel.Sparse B (sh B m) (Some p) (Some i) (if is_packed (sh B m) then s_nz B d else Some nz) (Some x) None). split.
  - unfold SuiteSparseModel.load_sparse. rewrite <- !app_assoc, L1. cbn [bind fst snd]. rewrite K1, K2. cbn [bind].
    rewrite EX. change (get_element_size_bytes (dtype (sh B m))) with (entry_bytes (dtype (sh B m))).
    pose proof (index_pos (itype (sh B m))) as IP. pose proof (entry_pos (dtype (sh B m))) as XP.
    rewrite realloc_ok by (right; nia). cbn [bind]. rewrite realloc_ok by (destruct HE as [?|[? _]]; [auto|right; nia]). cbn [bind].
    destruct (packedE (sh B m)) as [P|[P P0]]; rewrite P; cbn [negb bind].
    + rewrite realloc_ok by (destruct HE as [?|[? _]]; [auto|right; nia]). cbn [bind app].
      destruct (array_round "m.p" p (unset ((ncol (sh B m) + 1) * index_bytes (itype (sh B m)))) _ (array_stream "m.i" i ++ array_stream "m.x" x ++ rest) Lp (Hunset _)) as [_ ->]. cbn [bind fst snd].
      destruct (array_round "m.i" i (unset (nzmax (sh B m) * index_bytes (itype (sh B m)))) _ (array_stream "m.x" x ++ rest) Li (Hunset _)) as [_ ->]. cbn [bind fst snd].
      destruct (array_round "m.x" x (unset (nzmax (sh B m) * entry_bytes (dtype (sh B m)))) _ rest Lx (Hunset _)) as [_ ->]. cbn [bind fst snd].
      rewrite Hd. reflexivity.
    + destruct (Fnz P) as [Fz Lz].
      rewrite realloc_ok by (destruct HE as [?|[_ HE]]; [auto|specialize (HE P0); right; nia]). cbn [bind].
      rewrite realloc_ok by (destruct HE as [?|[? _]]; [auto|right; nia]). cbn [bind].
      destruct (array_round "m.p" p (unset ((ncol (sh B m) + 1) * index_bytes (itype (sh B m)))) _ (array_stream "m.i" i ++ array_stream "m.nz" nz ++ array_stream "m.x" x ++ rest) Lp (Hunset _)) as [_ ->]. cbn [bind fst snd].
      destruct (array_round "m.i" i (unset (nzmax (sh B m) * index_bytes (itype (sh B m)))) _ (array_stream "m.nz" nz ++ array_stream "m.x" x ++ rest) Li (Hunset _)) as [_ ->]. cbn [bind fst snd].
      destruct (array_round "m.nz" nz (unset (ncol (sh B m) * index_bytes (itype (sh B m)))) _ (array_stream "m.x" x ++ rest) Lz (Hunset _)) as [_ ->]. cbn [bind fst snd].
      destruct (array_round "m.x" x (unset (nzmax (sh B m) * entry_bytes (dtype (sh B m)))) _ rest Lx (Hunset _)) as [_ ->]. cbn [bind fst snd].
      rewrite Hd. reflexivity.
  - unfold same_sparse. cbn. rewrite Ep, Ei, Ex, Hzz. repeat split. intros P0.
    destruct (packedE (sh B m)) as [P|[P _]].
    + unfold is_packed in P. rewrite P0 in P. discriminate.
    + rewrite P. destruct (Fnz P) as [-> _]. reflexivity.
Qed.
Lemma dense_round m : whole_dense m -> mz = true \/ 0 < d_nzmax (dh B m) ->
  exists s, save_de m = Ok s /\ forall d rest, d_z B d = None -> load_de d (s ++ rest) = Ok (m, rest).
Proof.
  intros [Hd [x [Ex Lx]] Hzz] HE. destruct (dense_header_restores (dh B m)) as [s1 [E1 L1]].
  unfold SuiteSparseModel.save_dense. rewrite E1. cbn [bind]. apply Nat.leb_le in Hd. rewrite Hd. cbn [assert_then].
  rewrite Ex, Hzz. cbn [is_null negb].
  change (get_element_size_bytes (d_dtype (dh B m))) with (entry_bytes (d_dtype (dh B m))).
  change (get_num_x_elements (d_nzmax (dh B m)) (d_xtype (dh B m))) with (d_nzmax (dh B m) * (if (d_xtype (dh B m) =? complex)%Z then 2 else 1)).
  destruct (array_round "m.x" x x _ [] Lx Lx) as [-> _]. cbn [bind assert_then]. eexists. split; [reflexivity|].
  intros d rest Hdz. unfold SuiteSparseModel.load_dense. rewrite <- app_assoc, L1. cbn [bind fst snd]. rewrite Hd. cbn [assert_then].
  change (get_element_size_bytes (d_dtype (dh B m))) with (entry_bytes (d_dtype (dh B m))).
  change (get_num_x_elements (d_nzmax (dh B m)) (d_xtype (dh B m))) with (d_nzmax (dh B m) * (if (d_xtype (dh B m) =? complex)%Z then 2 else 1)).
  pose proof (entry_pos (d_dtype (dh B m))) as XP.
  rewrite realloc_ok by (destruct HE as [?|?]; [auto|right; destruct (d_xtype (dh B m) =? complex)%Z; nia]). cbn [bind].
  match goal with |- context [decode "m.x" (Some ?b0) ?n _] => destruct (array_round "m.x" x b0 n rest Lx (Hunset _)) as [_ ->] end.
  cbn [bind fst snd]. rewrite Hdz. cbn [is_null assert_then]. destruct m as [h mx mzz]. cbn in *. subst. reflexivity.
Qed.

(* ---- what can not be loaded ---- *)
(* complex entries: twice the number of bytes that were allocated are written *)
Lemma complex_overflow m p i x : itype (sh B m) = 0%Z \/ itype (sh B m) = 2%Z -> xtype (sh B m) = complex -> 0 < nzmax (sh B m) ->
  packed (sh B m) <> 0%Z -> s_z B m = None ->
  s_p B m = Some p -> length p = (ncol (sh B m) + 1) * index_bytes (itype (sh B m)) ->
  s_i B m = Some i -> length i = nzmax (sh B m) * index_bytes (itype (sh B m)) ->
  s_x B m = Some x -> length x = nzmax (sh B m) * 2 * entry_bytes (dtype (sh B m)) ->
  exists s, save_sp m = Ok s /\ forall d rest, load_sp d (s ++ rest) = UB.
Proof.
  intros Hi Hx Hn Hp Hzz Ep Lp Ei Li Ex Lx. destruct (known _ Hi) as [K [K1 K2]]. destruct (header_restores (sh B m)) as [s1 [E1 L1]].
  assert (is_packed (sh B m) = true) as P.
  { unfold is_packed. destruct (Z.eqb_spec (packed (sh B m)) 0); [contradiction|reflexivity]. }
  assert (get_num_x_elements (nzmax (sh B m)) (xtype (sh B m)) = nzmax (sh B m) * 2) as EX by (rewrite Hx; reflexivity).
  unfold SuiteSparseModel.save_sparse. rewrite K, E1, K1, K2. cbn [assert_then bind]. rewrite EX, Ep, Ei, Ex, Hzz, P, Bool.andb_false_r.
  change (get_element_size_bytes (dtype (sh B m))) with (entry_bytes (dtype (sh B m))).
  destruct (array_round "m.p" p p _ [] Lp Lp) as [-> _]. destruct (array_round "m.i" i i _ [] Li Li) as [-> _].
  cbn [bind is_null negb]. destruct (array_round "m.x" x x _ [] Lx Lx) as [-> _]. cbn [bind assert_then].
  eexists. split; [reflexivity|]. intros d rest.
  unfold SuiteSparseModel.load_sparse. rewrite <- !app_assoc, L1. cbn [bind fst snd]. rewrite K1, K2. cbn [bind].
  rewrite EX. change (get_element_size_bytes (dtype (sh B m))) with (entry_bytes (dtype (sh B m))).
  pose proof (index_pos (itype (sh B m))) as IP. pose proof (entry_pos (dtype (sh B m))) as XP.
  rewrite realloc_ok by (right; nia). cbn [bind]. rewrite realloc_ok by (right; nia). cbn [bind].
  rewrite P. cbn [negb bind]. rewrite realloc_ok by (right; nia). cbn [bind app].
  destruct (array_round "m.p" p (unset ((ncol (sh B m) + 1) * index_bytes (itype (sh B m)))) _ (array_stream "m.i" i ++ array_stream "m.x" x ++ rest) Lp (Hunset _)) as [_ ->]. cbn [bind fst snd].
  destruct (array_round "m.i" i (unset (nzmax (sh B m) * index_bytes (itype (sh B m)))) _ (array_stream "m.x" x ++ rest) Li (Hunset _)) as [_ ->]. cbn [bind fst snd].
  unfold decode_array, array_stream. cbn [app load named next c_bytes bind]. cbn.
  assert ((if text then dec (payload_of x) else payload_of x) = zc x) as ->.
  { unfold payload_of. destruct text; [apply Hb64|reflexivity]. }
  rewrite <- Lx, Hz, Hunset, Lx. destruct (Nat.ltb_spec (nzmax (sh B m) * entry_bytes (dtype (sh B m))) (nzmax (sh B m) * 2 * entry_bytes (dtype (sh B m)))); [reflexivity|nia].
Qed.
Lemma decode_wrong name b n s : (match s with (n', _) :: _ => n' <> name | [] => True end) -> decode name (Some b) n s = Throw.
Proof.
  intros H. unfold decode_array. cbn [load named]. unfold next. destruct s as [|[n' t] s]; [reflexivity|].
  destruct (String.eqb_spec n' name); [contradiction|]. reflexivity.
Qed.
(* no values, as in a pattern matrix: saved, but loading expects values *)
Lemma pattern_rejected m p i : itype (sh B m) = 0%Z \/ itype (sh B m) = 2%Z -> 0 < nzmax (sh B m) ->
  packed (sh B m) <> 0%Z -> s_z B m = None ->
  s_p B m = Some p -> length p = (ncol (sh B m) + 1) * index_bytes (itype (sh B m)) ->
  s_i B m = Some i -> length i = nzmax (sh B m) * index_bytes (itype (sh B m)) ->
  s_x B m = None ->
  exists s, save_sp m = Ok s /\ forall d rest, (match rest with (n, _) :: _ => n <> "m.x" | [] => True end) -> load_sp d (s ++ rest) = Throw.
Proof.
  intros Hi Hn Hp Hzz Ep Lp Ei Li Ex. destruct (known _ Hi) as [K [K1 K2]]. destruct (header_restores (sh B m)) as [s1 [E1 L1]].
  assert (is_packed (sh B m) = true) as P.
  { unfold is_packed. destruct (Z.eqb_spec (packed (sh B m)) 0); [contradiction|reflexivity]. }
  unfold SuiteSparseModel.save_sparse. rewrite K, E1, K1, K2. cbn [assert_then bind]. rewrite Ep, Ei, Ex, Hzz, P, Bool.andb_false_r.
  destruct (array_round "m.p" p p _ [] Lp Lp) as [-> _]. destruct (array_round "m.i" i i _ [] Li Li) as [-> _].
  cbn [bind is_null negb]. cbn [bind assert_then].
  eexists. split; [reflexivity|]. intros d rest Hr.
  unfold SuiteSparseModel.load_sparse. rewrite <- !app_assoc, L1. cbn [bind fst snd]. rewrite K1, K2. cbn [bind].
  change (get_element_size_bytes (dtype (sh B m))) with (entry_bytes (dtype (sh B m))).
  pose proof (index_pos (itype (sh B m))) as IP. pose proof (entry_pos (dtype (sh B m))) as XP.
  rewrite realloc_ok by (right; nia). cbn [bind]. rewrite realloc_ok by (right; nia). cbn [bind].
  rewrite P. cbn [negb bind]. rewrite realloc_ok by (right; nia). cbn [bind app].
  destruct (array_round "m.p" p (unset ((ncol (sh B m) + 1) * index_bytes (itype (sh B m)))) _ (array_stream "m.i" i ++ rest) Lp (Hunset _)) as [_ ->]. cbn [bind fst snd].
  destruct (array_round "m.i" i (unset (nzmax (sh B m) * index_bytes (itype (sh B m)))) _ rest Li (Hunset _)) as [_ ->]. cbn [bind fst snd].
  rewrite decode_wrong by exact Hr. reflexivity.
Qed.
(* unpacked without row counts: saved, but loading expects them *)
Lemma unpacked_rejected m p i x : itype (sh B m) = 0%Z \/ itype (sh B m) = 2%Z -> xtype (sh B m) <> complex ->
  0 < nzmax (sh B m) -> 0 < ncol (sh B m) -> packed (sh B m) = 0%Z -> s_z B m = None ->
  s_p B m = Some p -> length p = (ncol (sh B m) + 1) * index_bytes (itype (sh B m)) ->
  s_i B m = Some i -> length i = nzmax (sh B m) * index_bytes (itype (sh B m)) ->
  s_x B m = Some x -> length x = nzmax (sh B m) * entry_bytes (dtype (sh B m)) -> s_nz B m = None ->
  exists s, save_sp m = Ok s /\ forall d rest, load_sp d (s ++ rest) = Throw.
Proof.
  intros Hi Hx Hn Hc Hp Hzz Ep Lp Ei Li Ex Lx Enz. destruct (known _ Hi) as [K [K1 K2]]. destruct (header_restores (sh B m)) as [s1 [E1 L1]].
  assert (is_packed (sh B m) = false) as P by (unfold is_packed; rewrite Hp; reflexivity).
  assert (get_num_x_elements (nzmax (sh B m)) (xtype (sh B m)) = nzmax (sh B m)) as EX.
  { unfold get_num_x_elements, CHOLMOD_COMPLEX. destruct (Z.eqb_spec (xtype (sh B m)) 2); [contradiction|]. lia. }
  unfold SuiteSparseModel.save_sparse. rewrite K, E1, K1, K2. cbn [assert_then bind]. rewrite EX, Ep, Ei, Ex, Hzz, P, Enz. cbn [is_null negb andb].
  change (get_element_size_bytes (dtype (sh B m))) with (entry_bytes (dtype (sh B m))).
  destruct (array_round "m.p" p p _ [] Lp Lp) as [-> _]. destruct (array_round "m.i" i i _ [] Li Li) as [-> _].
  cbn [bind is_null negb]. destruct (array_round "m.x" x x _ [] Lx Lx) as [-> _]. cbn [bind assert_then].
  eexists. split; [reflexivity|]. intros d rest.
  unfold SuiteSparseModel.load_sparse. rewrite <- !app_assoc, L1. cbn [bind fst snd]. rewrite K1, K2. cbn [bind].
  rewrite EX. change (get_element_size_bytes (dtype (sh B m))) with (entry_bytes (dtype (sh B m))).
  pose proof (index_pos (itype (sh B m))) as IP. pose proof (entry_pos (dtype (sh B m))) as XP.
  rewrite realloc_ok by (right; nia). cbn [bind]. rewrite realloc_ok by (right; nia). cbn [bind].
  rewrite P. cbn [negb bind]. rewrite realloc_ok by (right; nia). cbn [bind]. rewrite realloc_ok by (right; nia). cbn [bind app].
  destruct (array_round "m.p" p (unset ((ncol (sh B m) + 1) * index_bytes (itype (sh B m)))) _ (array_stream "m.i" i ++ array_stream "m.x" x ++ rest) Lp (Hunset _)) as [_ ->]. cbn [bind fst snd].
  destruct (array_round "m.i" i (unset (nzmax (sh B m) * index_bytes (itype (sh B m)))) _ (array_stream "m.x" x ++ rest) Li (Hunset _)) as [_ ->]. cbn [bind fst snd].
  rewrite decode_wrong by (cbn; discriminate). reflexivity.
Qed.

(* ---- memory safety on any archive ---- *)
Lemma decode_safe name n k s : k <= n -> decode name (Some (unset n)) k s <> UB.
Proof.
  intros H. unfold decode_array. cbn [load named]. unfold next. destruct s as [|[n' t] s]; [discriminate|].
  destruct (String.eqb n' name); [|discriminate]. destruct t; try discriminate. cbn [bind c_bytes load]. unfold next.
  destruct s as [|[n'' t] s]; [discriminate|]. destruct (String.eqb n'' ""); [|discriminate]. destruct t; try discriminate. cbn [bind fst snd].
  destruct (zd _ _); [|discriminate]. rewrite Hunset. destruct (Nat.ltb_spec n k); [lia|discriminate].
Qed.
Lemma realloc_cases count size : realloc count size = Ok (Some (unset (count * size))) \/ realloc count size = Abort.
Proof. unfold suitesparse_cereal_realloc. destruct (_ || _); auto. Qed.
Lemma bind_UB {A C} (o : outcome A) (f : A -> outcome C) : bind o f = UB -> o = UB \/ exists a, o = Ok a /\ f a = UB.
Proof. destruct o; cbn; auto; try discriminate. intros H. right. exists a. auto. Qed.
Lemma size_cases t : (get_p_element_size_bytes t = Ok (index_bytes t) /\ get_integer_size_bytes t = Ok (index_bytes t)) \/
  get_p_element_size_bytes t = Abort.
Proof.
  unfold get_p_element_size_bytes, get_integer_size_bytes, known_itype, index_bytes, CHOLMOD_INT, CHOLMOD_LONG.
  destruct (Z.eqb_spec t 0) as [->|]; [left; split; reflexivity|].
  destruct (Z.eqb_spec t 2) as [->|]; [left; split; reflexivity|]. right. reflexivity.
Qed.
Definition never_UB {A} (c : codec bytes A) : Prop := forall s, load c s <> UB.
Lemma named_never_UB {A} n (c : codec bytes A) : never_UB c -> never_UB (named bytes n c).
Proof.
  intros H s E. cbn [load named] in E. unfold next in E. destruct s as [|[n' t] s]; [discriminate|].
  destruct (String.eqb n' n); [|discriminate]. destruct t; try discriminate. exact (H _ E).
Qed.
Lemma nat_never_UB : never_UB (c_nat bytes).
Proof.
  intros s E. cbn [load c_nat] in E. unfold next in E. destruct s as [|[n' t] s]; [discriminate|].
  destruct (String.eqb n' ""); [|discriminate]. destruct t; discriminate.
Qed.
Lemma int_never_UB : never_UB (c_int bytes).
Proof.
  intros s E. cbn [load c_int] in E. unfold next in E. destruct s as [|[n' t] s]; [discriminate|].
  destruct (String.eqb n' ""); [|discriminate]. destruct t; discriminate.
Qed.
Lemma pair_never_UB {A C} (a : codec bytes A) (c : codec bytes C) : never_UB a -> never_UB c -> never_UB (c_pair bytes a c).
Proof.
  intros Ha Hc s E. cbn [load c_pair] in E. apply bind_UB in E. destruct E as [E|[r [_ E]]]; [exact (Ha _ E)|].
  apply bind_UB in E. destruct E as [E|[r' [_ E]]]; [exact (Hc _ E)|discriminate].
Qed.
Lemma iso_never_UB {A C} to from (c : codec bytes A) : never_UB c -> never_UB (c_iso bytes (A := C) to from c).
Proof.
  intros Hc s E. cbn [load c_iso] in E. apply bind_UB in E. destruct E as [E|[r [_ E]]]; [exact (Hc _ E)|discriminate].
Qed.
Lemma sparse_header_never_UB : never_UB (c_sparse_header bytes).
Proof. apply iso_never_UB. repeat apply pair_never_UB; apply named_never_UB; first [apply nat_never_UB|apply int_never_UB]. Qed.
Lemma dense_header_never_UB : never_UB (c_dense_header bytes).
Proof. apply iso_never_UB. repeat apply pair_never_UB; apply named_never_UB; first [apply nat_never_UB|apply int_never_UB]. Qed.
Ltac stepUB E := apply bind_UB in E; let r := fresh "r" in let F := fresh "F" in destruct E as [E|[r [F E]]]; [solve [exfalso; revert E; first [apply decode_safe; try rewrite Hunset; lia | discriminate]]|].
Lemma load_sparse_safe d s : load_sp d s = UB -> exists h s', load (c_sparse_header bytes) s = Ok (h, s') /\ xtype h = complex.
Proof.
  intros E. unfold SuiteSparseModel.load_sparse in E. apply bind_UB in E. destruct E as [E|[[h s'] [F E]]].
  { destruct (sparse_header_never_UB _ E). }
  cbn [fst snd] in E. exists h, s'. split; [exact F|]. destruct (Z.eqb_spec (xtype h) complex) as [->|N]; [reflexivity|]. exfalso.
  assert (get_num_x_elements (nzmax h) (xtype h) = nzmax h) as EX.
  { unfold get_num_x_elements, CHOLMOD_COMPLEX. unfold complex in N. destruct (Z.eqb_spec (xtype h) 2); [contradiction|]. lia. }
  rewrite EX in E. destruct (size_cases (itype h)) as [[K0 K]|K]; [rewrite K0, K in E|rewrite K in E; discriminate]. cbn [bind] in E.
  destruct (realloc_cases (ncol h + 1) (index_bytes (itype h))) as [R|R]; rewrite R in E; [|discriminate]. cbn [bind] in E.
  destruct (realloc_cases (nzmax h) (index_bytes (itype h))) as [R1|R1]; rewrite R1 in E; [|discriminate]. cbn [bind] in E.
  assert (is_packed h = true \/ is_packed h = false) as [P|P] by (destruct (is_packed h); auto); rewrite P in E; cbn [negb bind] in E.
  - destruct (realloc_cases (nzmax h) (get_element_size_bytes (dtype h))) as [R2|R2]; rewrite R2 in E; [|discriminate]. cbn [bind] in E.
    stepUB E. stepUB E. cbn [bind fst snd] in E. stepUB E. destruct (is_null _ _); discriminate.
  - destruct (realloc_cases (ncol h) (index_bytes (itype h))) as [R2|R2]; rewrite R2 in E; [|discriminate]. cbn [bind] in E.
    destruct (realloc_cases (nzmax h) (get_element_size_bytes (dtype h))) as [R3|R3]; rewrite R3 in E; [|discriminate]. cbn [bind] in E.
    stepUB E. stepUB E. stepUB E. stepUB E. destruct (is_null _ _); discriminate.
Qed.
Lemma load_dense_safe d s : load_de d s <> UB.
Proof.
  intros E. unfold SuiteSparseModel.load_dense in E. apply bind_UB in E. destruct E as [E|[[h s'] [F E]]].
  { destruct (dense_header_never_UB _ E). }
  cbn [fst snd] in E. destruct (d_nrow h <=? d_d h); [|discriminate]. cbn [assert_then] in E.
  match type of E with context [realloc ?c ?z] => destruct (realloc_cases c z) as [R|R]; rewrite R in E; [|discriminate] end. cbn [bind] in E.
  stepUB E. destruct (is_null _ _); discriminate.
Qed.
End P.
