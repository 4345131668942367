From Coq Require Import Reals Lra ZArith String Sorting.Sorted.
From Verif Require Import Base BaseProofs StdMapModel StdMapProofs StringKeyModel ExtRealModel ExtRealProofs PriorModel ParamsModel
  ParamsSpec ParamsProofs ParamsProps CerealModel CerealSpec.
Open Scope string_scope.
Open Scope nat_scope.
Open Scope list_scope.

Section P.
Variable bytes : Type.
Notation codec := (codec bytes).

Lemma named_restores {A} n (c : codec A) x : restores c x -> restores (named bytes n c) x.
Proof.
  intros [s [E L]]. exists ((n, TOpen) :: s). cbn [named save load]. rewrite E. split; [reflexivity|].
  intros rest. cbn [next app bind]. rewrite String.eqb_refl. cbn. apply L.
Qed.
Lemma nat_restores n : restores (c_nat bytes) n.
Proof. exists [("", TNat n)]. split; reflexivity. Qed.
Lemma int_restores n : restores (c_int bytes) n.
Proof. exists [("", TInt n)]. split; reflexivity. Qed.
Lemma bool_restores n : restores (c_bool bytes) n.
Proof. exists [("", TBool n)]. split; reflexivity. Qed.
Lemma double_restores n : restores (c_double bytes) n.
Proof. exists [("", TDbl n)]. split; reflexivity. Qed.
Lemma string_restores n : restores (c_string bytes) n.
Proof. exists [("", TStr n)]. split; reflexivity. Qed.
Lemma bytes_restores n : restores (c_bytes bytes) n.
Proof. exists [("", TBytes n)]. split; reflexivity. Qed.
Lemma real_restores x : restores (c_real bytes) x.
Proof. exists [("", TDbl (XFin x))]. split; reflexivity. Qed.
Lemma pair_restores {A B} (ca : codec A) (cb : codec B) x y :
  restores ca x -> restores cb y -> restores (c_pair bytes ca cb) (x, y).
Proof.
  intros [s [E L]] [s' [E' L']]. exists (s ++ s'). cbn [c_pair save load fst snd]. rewrite E. cbn [bind]. rewrite E'. split; [reflexivity|].
  intros rest. rewrite <- app_assoc, L. cbn [bind fst snd]. rewrite L'. reflexivity.
Qed.
Lemma iso_restores {A B} (to : A -> B) from (c : codec B) x : from (to x) = x -> restores c (to x) -> restores (c_iso bytes to from c) x.
Proof.
  intros H [s [E L]]. exists s. split; [exact E|]. intros rest. cbn [c_iso load]. rewrite L. cbn [bind fst snd]. rewrite H. reflexivity.
Qed.
Lemma all_restores {A} (c : codec A) xs : Forall (restores c) xs ->
  exists s, save_all bytes c xs = Ok s /\ forall rest, load_all bytes c (length xs) (s ++ rest) = Ok (xs, rest).
Proof.
  induction 1 as [|x xs [s [E L]] Hxs [s' [E' L']]].
  - exists []. split; reflexivity.
  - exists (s ++ s'). cbn [save_all]. rewrite E. cbn [bind]. rewrite E'. split; [reflexivity|].
    intros rest. cbn [length load_all]. rewrite <- app_assoc, L. cbn [bind fst snd]. rewrite L'. reflexivity.
Qed.
Lemma vector_restores {A} (c : codec A) xs : Forall (restores c) xs -> restores (c_vector bytes c) xs.
Proof.
  intros H. destruct (all_restores c xs H) as [s [E L]]. destruct (nat_restores (length xs)) as [s1 [E1 L1]].
  exists (s1 ++ s). cbn [c_vector save load]. rewrite E1. cbn [bind]. rewrite E. split; [reflexivity|].
  intros rest. rewrite <- app_assoc, L1. cbn [bind fst snd]. apply L.
Qed.


Lemma sorted_middle {K} `{OrdKey K} (a : list K) k l : StronglySorted klt (a ++ k :: l) ->
  Forall (fun k' => klt k' k) a /\ StronglySorted klt a.
Proof.
  induction a as [|x a IH]; cbn; intros S; [split; constructor|]. inversion S as [|? ? S' F]; subst. destruct (IH S') as [F' S''].
  rewrite Forall_app in F. destruct F as [F1 F2]. inversion F2; subst. split; constructor; assumption.
Qed.
Lemma fold_memplace {K V} `{OrdKey K} (l acc : smap K V) : wf_map (acc ++ l) ->
  fold_left (fun m kv => memplace (fst kv) (snd kv) m) l acc = acc ++ l.
Proof.
  revert acc. induction l as [|[k v] l IH]; intros acc W; cbn [fold_left fst snd].
  - rewrite app_nil_r. reflexivity.
  - assert (memplace k v acc = acc ++ [(k, v)]) as E.
    { unfold wf_map in W. rewrite map_app in W. cbn in W. destruct (sorted_middle _ _ _ W) as [F S].
      unfold memplace. rewrite (proj2 (mfind_None k acc S)).
      - apply massign_snoc, F.
      - intros Hin. rewrite Forall_forall in F. apply (klt_irrefl k), F, Hin. }
    rewrite E, IH; rewrite <- app_assoc; [reflexivity|exact W].
Qed.
Lemma map_restores {K V} `{OrdKey K} (ck : codec K) (cv : codec V) m :
  wf_map m -> (forall k v, In (k, v) m -> restores ck k /\ restores cv v) -> restores (c_map bytes ck cv) m.
Proof.
  intros W Hkv. destruct (vector_restores (c_pair bytes (named bytes "key" ck) (named bytes "value" cv)) m) as [s [E L]].
  - apply Forall_forall. intros [k v] Hin. destruct (Hkv k v Hin). apply pair_restores; apply named_restores; assumption.
  - exists s. split; [exact E|]. intros rest. cbn [c_map load]. rewrite L. cbn [bind fst snd]. rewrite (fold_memplace m []) by exact W. reflexivity.
Qed.

Lemma restores_eq {A} (c : codec A) x : restores c x <-> restores_upto eq c x.
Proof. split; [intros [s [E L]]; exists s; split; [exact E|]; exists x; auto|intros [s [E [y [-> L]]]]; exists s; auto]. Qed.
Lemma named_upto {A} R n (c : codec A) x : restores_upto R c x -> restores_upto R (named bytes n c) x.
Proof.
  intros [s [E [y [HR L]]]]. exists ((n, TOpen) :: s). cbn [named save load]. rewrite E. split; [reflexivity|].
  exists y. split; [exact HR|]. intros rest. cbn [next app bind]. rewrite String.eqb_refl. cbn. apply L.
Qed.
Lemma pair_upto {A B} RA RB (ca : codec A) (cb : codec B) x y :
  restores_upto RA ca x -> restores_upto RB cb y ->
  restores_upto (fun p q => RA (fst p) (fst q) /\ RB (snd p) (snd q)) (c_pair bytes ca cb) (x, y).
Proof.
  intros [s [E [x' [HR L]]]] [s' [E' [y' [HR' L']]]]. exists (s ++ s'). cbn [c_pair save load fst snd]. rewrite E. cbn [bind]. rewrite E'.
  split; [reflexivity|]. exists (x', y'). split; [auto|].
  intros rest. rewrite <- app_assoc, L. cbn [bind fst snd]. rewrite L'. reflexivity.
Qed.

(* ---- dense ---- *)
Section D.
Variable text : bool.
Variables enc dec : bytes -> bytes.
Hypothesis Hb64 : base64_ok enc dec.
Section D1.
Variable E : Type.
Variable zc : list E -> bytes.
Variable zd : bytes -> nat -> option (list E).
Variable gd : bytes -> option (list E).
Hypothesis Hz : zstd_ok zc zd.

Notation dense := (c_dense bytes text enc dec E zc zd gd).
Lemma dense_restores m : wf_matrix m -> restores dense m.
Proof.
  intros W. cbn. unfold restores. cbn [save load c_dense]. unfold save_dense.
  destruct (named_restores "rows" _ _ (nat_restores (rows E m))) as [s1 [E1 L1]].
  destruct (named_restores "cols" _ _ (nat_restores (cols E m))) as [s2 [E2 L2]].
  destruct (named_restores "payload" _ _ (bytes_restores (if text then enc (zc (data E m)) else zc (data E m)))) as [s3 [E3 L3]].
  rewrite E1, E2, E3. cbn [bind]. exists (s1 ++ s2 ++ s3). split; [reflexivity|]. intros rest. unfold load_dense.
  rewrite <- !app_assoc, L1. cbn [bind fst snd]. rewrite L2. cbn [bind fst snd]. rewrite L3. cbn [bind fst snd].
  unfold wf_matrix in W. destruct m as [r c d]. cbn [rows cols data] in *. destruct (Nat.eqb_spec (r * c) 0) as [Z|NZ].
  - rewrite Z in W. destruct d; [reflexivity|discriminate].
  - rewrite <- W.
    replace (if text then dec (if text then enc (zc d) else zc d) else if text then enc (zc d) else zc d) with (zc d).
    + rewrite Hz. reflexivity.
    + destruct text; [symmetry; apply Hb64|reflexivity].
Qed.

(* archives written before zstd: the payload is gzip *)
Lemma dense_gzip r c d rest b : r * c <> 0 -> zd b (r * c) = None -> gd b = Some d ->
  load dense ([("rows", TOpen); ("", TNat r); ("cols", TOpen); ("", TNat c); ("payload", TOpen); ("", TBytes (if text then enc b else b))] ++ rest) =
  if length d =? r * c then Ok (Matrix E r c d, rest) else Abort.
Proof.
  intros Hn Hz' Hg. cbn - [Nat.mul Nat.eqb]. apply Nat.eqb_neq in Hn. rewrite Hn.
  replace (if text then dec (if text then enc b else b) else if text then enc b else b) with b
    by (destruct text; [symmetry; apply Hb64|reflexivity]).
  rewrite Hz', Hg. unfold assert_then. reflexivity.
Qed.

Lemma lower_S n : lower_positions (S n) = lower_positions n ++ map (fun j => (n, j)) (seq 0 (S n)).
Proof.
  unfold lower_positions. etransitivity; [apply f_equal, f_equal, seq_S|]. rewrite map_app, concat_app. cbn [Nat.add map concat].
  rewrite app_nil_r. reflexivity.
Qed.
Lemma in_lower n i j : In (i, j) (lower_positions n) <-> j <= i < n.
Proof.
  induction n as [|n IH]; [cbn; lia|]. rewrite lower_S, in_app_iff, IH, in_map_iff. split.
  - intros [H|[k [Ek Hk]]]; [lia|]. injection Ek as <- <-. apply in_seq in Hk. lia.
  - intros H. destruct (Nat.eq_dec i n) as [->|]; [right|left; lia]. exists j. split; [reflexivity|]. apply in_seq. lia.
Qed.
Lemma lower_length n : 2 * length (lower_positions n) = n * (n + 1).
Proof. induction n as [|n IH]; [reflexivity|]. rewrite lower_S, app_length, map_length, seq_length. lia. Qed.

Lemma lround_nat n : lround (INR n) = Z.of_nat n.
Proof.
  unfold lround. destruct (Rleb_spec 0 (INR n)) as [H|H]; [|pose proof (pos_INR n); lra].
  rewrite INR_IZR_INZ. unfold Int_part. rewrite <- (tech_up (IZR (Z.of_nat n) + 1 / 2) (Z.of_nat n + 1)); rewrite ?plus_IZR; try lra. lia.
Qed.
Lemma triangle_sqrt (s n : nat) : 2 * s = n * (n + 1) -> ((sqrt (1 * 1 - 4 * 1 * (-2 * INR s)) - 1) / (2 * 1))%R = INR n.
Proof.
  intros H. apply (f_equal INR) in H. rewrite !mult_INR, plus_INR in H. change (INR 2) with 2%R in H. change (INR 1) with 1%R in H.
  replace (1 * 1 - 4 * 1 * (-2 * INR s))%R with ((2 * INR n + 1) * (2 * INR n + 1))%R by nra.
  pose proof (pos_INR n). rewrite sqrt_square by lra. lra.
Qed.
Lemma triangle_rows_spec s : 
  (forall n, 2 * s = n * (n + 1) -> triangle_rows s = Ok n) /\
  ((forall n, 2 * s <> n * (n + 1)) -> triangle_rows s = Abort).
Proof.
  split.
  - intros n H. unfold triangle_rows. rewrite (triangle_sqrt s n H), lround_nat, <- INR_IZR_INZ, Rminus_diag_eq by reflexivity.
    destruct (Reqb_spec 0 0); [|lra]. cbn. rewrite Nat2Z.id. reflexivity.
  - intros H. unfold triangle_rows. set (x := ((sqrt (1 * 1 - 4 * 1 * (-2 * INR s)) - 1) / (2 * 1))%R).
    destruct (Reqb_spec (x - IZR (lround x)) 0) as [Hx|Hx]; [|reflexivity]. exfalso.
    pose proof (pos_INR s) as Hs.
    assert (0 <= 1 * 1 - 4 * 1 * (-2 * INR s))%R as Hp by nra.
    pose proof (sqrt_sqrt _ Hp) as Hq. pose proof (sqrt_pos (1 * 1 - 4 * 1 * (-2 * INR s))) as Hqp.
    set (q := sqrt (1 * 1 - 4 * 1 * (-2 * INR s))) in *.
    assert (1 <= q)%R as Hq1 by nra.
    assert (0 <= x)%R as Hx0 by (unfold x; lra).
    assert (x = IZR (lround x)) as Hxi by lra.
    set (z := lround x) in *. assert (0 <= z)%Z as Hz0 by (apply le_IZR; lra).
    apply (H (Z.to_nat z)). apply INR_eq. rewrite !mult_INR, plus_INR. rewrite (INR_IZR_INZ (Z.to_nat z)), Z2Nat.id by exact Hz0.
    rewrite <- Hxi. change (INR 2) with 2%R. change (INR 1) with 1%R. unfold x. nra.
Qed.

Lemma find_combine {R : nat * nat -> E -> Prop} l d i j : Forall2 R l d ->
  match find (fun p => (fst (fst p) =? i) && (snd (fst p) =? j)) (combine l d) with
  | Some p => R (i, j) (snd p) /\ In (i, j) l
  | None => ~ In (i, j) l
  end.
Proof.
  induction 1 as [|[a b] x l d Hx Hl IH]; [cbn; tauto|]. cbn [combine find fst snd].
  destruct (Nat.eqb_spec a i) as [->|N]; cbn [andb]; [destruct (Nat.eqb_spec b j) as [->|N]|].
  - split; [exact Hx|left; reflexivity].
  - destruct (find _ _); [split; [tauto|right; tauto]|]. intros [H|H]; [congruence|]. exact (IH H).
  - destruct (find _ _); [split; [tauto|right; tauto]|]. intros [H|H]; [congruence|]. exact (IH H).
Qed.

Lemma read_all (d pre : list E) :
  Forall2 (fun x y => of_option UB (nth_error (pre ++ d) x) = Ok y) (seq (length pre) (length d)) d.
Proof.
  revert pre. induction d as [|x d IH]; intros pre; cbn [length seq]; constructor.
  - rewrite nth_error_app2, Nat.sub_diag by lia. reflexivity.
  - specialize (IH (pre ++ [x])). rewrite <- app_assoc in IH. cbn [app] in IH. rewrite app_length in IH. cbn in IH.
    replace (length pre + 1) with (S (length pre)) in IH by lia. exact IH.
Qed.

(* column major tables *)
Lemma table_length (f : nat -> nat -> E) n k : length (concat (map (fun j => map (fun i => f i j) (seq 0 n)) (seq 0 k))) = n * k.
Proof.
  induction k as [|k IH]; [cbn; lia|]. rewrite seq_S, map_app, concat_app, app_length, IH. cbn. rewrite app_nil_r, map_length, seq_length. lia.
Qed.
Lemma table_nth (f : nat -> nat -> E) n k i j : i < n -> j < k ->
  nth_error (concat (map (fun j => map (fun i => f i j) (seq 0 n)) (seq 0 k))) (j * n + i) = Some (f i j).
Proof.
  intros Hi. induction k as [|k IH]; [lia|]. intros Hj. rewrite seq_S, map_app, concat_app. cbn [Nat.add map concat]. rewrite app_nil_r.
  destruct (Nat.eq_dec j k) as [->|N].
  - rewrite nth_error_app2; rewrite table_length; [|nia]. replace (k * n + i - n * k) with i by nia.
    rewrite nth_error_map', nth_error_seq. apply Nat.ltb_lt in Hi. rewrite Hi. reflexivity.
  - rewrite nth_error_app1 by (rewrite table_length; nia). apply IH. lia.
Qed.

Lemma lower_restores m : wf_matrix m -> rows E m <= cols E m ->
  exists s, save_lower_triangle bytes text enc dec E zc zd gd m = Ok s /\
  forall unset, exists m', (forall rest, load_lower_triangle bytes text enc dec E zc zd gd unset (s ++ rest) = Ok (m', rest)) /\
    wf_matrix m' /\ rows E m' = rows E m /\ cols E m' = rows E m /\
    forall i j, i < rows E m -> j < rows E m -> entry E m' i j = if j <=? i then entry E m i j else Some (unset i j).
Proof.
  intros W Hrc. unfold save_lower_triangle.
  set (n := rows E m) in *.
  assert (is_ok (mapM (fun ij => of_option Abort (entry E m (fst ij) (snd ij))) (lower_positions n)) = true) as Hok.
  { rewrite mapM_not_ok_iff. apply forallb_forall. intros [i j] Hin. apply in_lower in Hin. cbn [fst snd].
    unfold entry. fold n. rewrite (proj2 (Nat.ltb_lt i n)) by lia. rewrite (proj2 (Nat.ltb_lt j (cols E m))) by lia. cbn [andb].
    destruct (nth_error (data E m) (j * n + i)) eqn:Fn; [reflexivity|]. apply nth_error_None in Fn. unfold wf_matrix in W. fold n in W. nia. }
  destruct (mapM (fun ij => of_option Abort (entry E m (fst ij) (snd ij))) (lower_positions n)) as [d| | |] eqn:Ed; try discriminate.
  cbn [bind]. pose proof (proj1 (mapM_ok _ _ _) Ed) as F2.
  assert (length d = length (lower_positions n)) as Hd by (symmetry; eapply Forall2_len, F2).
  assert (wf_matrix (vec E d)) as Wd by (unfold wf_matrix, vec; cbn; lia).
  destruct (named_restores "lower_triangle" _ _ (dense_restores (vec E d) Wd)) as [s [Es Ls]].
  exists s. split; [exact Es|]. intros unset. eexists. split.
  { intros rest. unfold load_lower_triangle. rewrite Ls. cbn [bind fst snd].
  cbn [vec rows cols data]. rewrite Nat.mul_1_r.
  rewrite (proj1 (triangle_rows_spec (length d)) n) by (rewrite Hd; apply lower_length). cbn [bind].
  assert (mapM (fun cnt => of_option UB (nth_error d cnt)) (seq 0 (length (lower_positions n))) = Ok d) as Er.
  { apply mapM_ok. rewrite <- Hd. exact (read_all d []). }
  rewrite Er. cbn [bind]. reflexivity. }
  unfold wf_matrix. cbn [rows cols data]. split; [rewrite table_length; reflexivity|].
  split; [reflexivity|]. split; [reflexivity|]. intros i j Hi Hj. unfold entry at 1. cbn [rows cols data].
  rewrite (proj2 (Nat.ltb_lt i n)), (proj2 (Nat.ltb_lt j n)) by assumption. cbn [andb].
  rewrite (table_nth (fun i j => match find (fun p => (fst (fst p) =? i) && (snd (fst p) =? j)) (combine (lower_positions n) d) with
                 | Some p => snd p
                 | None => unset i j
                 end)) by assumption.
  pose proof (find_combine _ _ i j F2) as Hf. destruct (find _ _) as [p|].
  - cbn [fst snd] in Hf. destruct Hf as [Hf Hin]. apply in_lower in Hin. rewrite (proj2 (Nat.leb_le j i)) by lia.
    destruct (entry E m i j); cbn in Hf; [congruence|discriminate].
  - destruct (Nat.leb_spec j i) as [Hle|Hgt]; [|reflexivity]. exfalso. apply Hf, in_lower. lia.
Qed.

Lemma lower_narrow m : cols E m < rows E m -> is_ok (save_lower_triangle bytes text enc dec E zc zd gd m) = false.
Proof.
  intros H. unfold save_lower_triangle.
  destruct (mapM (fun ij => of_option Abort (entry E m (fst ij) (snd ij))) (lower_positions (rows E m))) as [d| | |] eqn:Ed; try reflexivity.
  exfalso. assert (is_ok (mapM (fun ij => of_option Abort (entry E m (fst ij) (snd ij))) (lower_positions (rows E m))) = true) as Hok by (rewrite Ed; reflexivity).
  rewrite mapM_not_ok_iff, forallb_forall in Hok. specialize (Hok (rows E m - 1, rows E m - 1)).
  cbn [fst snd] in Hok. unfold entry in Hok. rewrite (proj2 (Nat.ltb_ge (rows E m - 1) (cols E m))), andb_false_r in Hok by lia.
  assert (In (rows E m - 1, rows E m - 1) (lower_positions (rows E m))) as Hin by (apply in_lower; lia).
  specialize (Hok Hin). discriminate.
Qed.
Lemma lower_rejects d unset rest s : (forall n, 2 * length d <> n * (n + 1)) ->
  save (named bytes "lower_triangle" dense) (vec E d) = Ok s ->
  load_lower_triangle bytes text enc dec E zc zd gd unset (s ++ rest) = Abort.
Proof.
  intros H Hs.
  assert (wf_matrix (vec E d)) as Wd by (unfold wf_matrix, vec; cbn; lia).
  destruct (named_restores "lower_triangle" _ _ (dense_restores (vec E d) Wd)) as [s' [Es Ls]].
  rewrite Hs in Es. injection Es as <-. unfold load_lower_triangle. rewrite Ls. cbn [bind fst snd vec rows cols data].
  rewrite Nat.mul_1_r. rewrite (proj2 (triangle_rows_spec (length d)) H). reflexivity.
Qed.
End D1.

(* ---- sparse ---- *)
Section S1.
Variable E : Type.
Variable zero : E.
Variable plus : E -> E -> E.
Hypothesis plus_zero : forall x, plus x zero = x.
Variable gc : list (cell E) -> bytes.
Variable gd : bytes -> option (list (cell E)).
Hypothesis Hg : gzip_ok gc gd.

Definition flip (t : nat * nat * E) : nat * nat * E := match t with (r, c, v) => (c, r, v) end.
Definition step (i j : nat) (acc : E) (t : nat * nat * E) : E :=
  match t with (r, c, v) => if (r =? i) && (c =? j) then plus acc v else acc end.
Lemma sum_at_step ts i j : sum_at E zero plus ts i j = fold_left (step i j) ts zero.
Proof. reflexivity. Qed.
Lemma overlay_nil n : overlay E zero [] n = Some (repeat (0, 0, zero) n).
Proof. induction n as [|n IH]; [reflexivity|]. cbn [overlay repeat]. rewrite IH. reflexivity. Qed.
Lemma step_repeat i j n acc : fold_left (step i j) (repeat (0, 0, zero) n) acc = acc.
Proof. induction n as [|n IH]; [reflexivity|]. cbn [repeat fold_left]. unfold step at 2. rewrite plus_zero. destruct (_ && _); apply IH. Qed.
Lemma range_repeat nr nc n : 0 < nr -> 0 < nc -> forallb (in_range E nr nc) (repeat (0, 0, zero) n) = true.
Proof.
  intros H1 H2. induction n as [|n IH]; [reflexivity|]. cbn [repeat forallb in_range].
  rewrite (proj2 (Nat.ltb_lt 0 nr)), (proj2 (Nat.ltb_lt 0 nc)), IH by assumption. reflexivity.
Qed.
Lemma overlay_spec nr nc : 0 < nr -> 0 < nc -> forall ts c n, c <= 2 * length ts -> c <= n + n ->
  exists out, overlay E zero (firstn c (concat (map (cells_of E) ts))) n = Some out /\
    (forall i j acc, fold_left (step i j) out acc = fold_left (step i j) (firstn (c / 2) ts) acc) /\
    forallb (in_range E nr nc) out = forallb (in_range E nr nc) (firstn ((c + 1) / 2) ts).
Proof.
  intros Hr Hc. induction ts as [|[[r c'] v] ts IH]; intros c n H1 H2.
  - cbn in H1. replace c with 0 by lia. cbn [map concat firstn]. exists (repeat (0, 0, zero) n). rewrite overlay_nil. split; [reflexivity|].
    rewrite firstn_nil. split; [intros; rewrite step_repeat; reflexivity|]. rewrite range_repeat, firstn_nil by assumption. reflexivity.
  - destruct c as [|[|c]].
    + cbn [firstn]. exists (repeat (0, 0, zero) n). rewrite overlay_nil. split; [reflexivity|].
      split; [intros; rewrite step_repeat; reflexivity|]. rewrite range_repeat by assumption. reflexivity.
    + destruct n as [|n]; [lia|]. cbn [map concat cells_of app firstn overlay]. rewrite overlay_nil. cbn [option_map].
      eexists. split; [reflexivity|]. split.
      * intros i j acc. cbn [fold_left]. rewrite step_repeat. unfold step. rewrite plus_zero. destruct (_ && _); reflexivity.
      * cbn [forallb]. rewrite range_repeat by assumption. reflexivity.
    + destruct n as [|n]; [lia|]. cbn [map concat cells_of app firstn overlay].
      destruct (IH c n) as [out [E1 [E2 E3]]]; [cbn [length] in H1; lia|lia|].
      rewrite E1. cbn [option_map]. eexists. split; [reflexivity|].
      replace (S (S c) / 2) with (S (c / 2)) by (replace (S (S c)) with (c + 1 * 2) by lia; rewrite Nat.div_add; lia).
      replace ((S (S c) + 1) / 2) with (S ((c + 1) / 2)) by (replace (S (S c) + 1) with (c + 1 + 1 * 2) by lia; rewrite Nat.div_add; lia).
      split; [intros; cbn [firstn fold_left]; apply E2|]. cbn [firstn forallb]. rewrite E3. reflexivity.
Qed.
Lemma cells_length ts : length (concat (map (cells_of E) ts)) = 2 * length ts.
Proof. induction ts as [|[[r c] v] ts IH]; [reflexivity|]. cbn [map concat cells_of app length]. rewrite IH. lia. Qed.
Lemma flip_step i j ts acc : fold_left (step i j) (map flip ts) acc = fold_left (step j i) ts acc.
Proof.
  revert acc. induction ts as [|[[r c] v] ts IH]; intros acc; [reflexivity|]. cbn [map fold_left flip]. rewrite IH. f_equal. unfold step.
  rewrite andb_comm. reflexivity.
Qed.

Lemma sparse_spec m : wf_sparse m -> 
  exists s, save_sparse bytes text enc E gc m = Ok s /\ forall rest,
    let nnz := length (stored E m) in
    (flipped_inside m ((nnz + 1) / 2) = true -> exists f,
       load_sparse bytes text dec E zero plus gd (s ++ rest) = Ok (srows E m, scols E m, f, rest) /\
       forall i j, f i j = sum_at E zero plus (firstn (nnz / 2) (stored E m)) j i) /\
    (flipped_inside m ((nnz + 1) / 2) = false -> load_sparse bytes text dec E zero plus gd (s ++ rest) = Abort).
Proof.
  intros W. unfold save_sparse. set (nnz := length (stored E m)).
  change (fun t => let '(r, c, v) := t in (c, r, v)) with flip.
  set (cells := firstn nnz (concat (map (cells_of E) (map flip (stored E m))))).
  destruct (named_restores "rows" _ _ (nat_restores (srows E m))) as [s1 [E1 L1]].
  destruct (named_restores "cols" _ _ (nat_restores (scols E m))) as [s2 [E2 L2]].
  destruct (named_restores "nnz" _ _ (nat_restores nnz)) as [s3 [E3 L3]].
  destruct (named_restores "payload" _ _ (bytes_restores (if text then enc (gc cells) else gc cells))) as [s4 [E4 L4]].
  rewrite E1, E2, E3, E4. cbn [bind]. eexists. split; [reflexivity|]. intros rest.
  assert (length cells = nnz) as Lc.
  { unfold cells. rewrite firstn_length, cells_length, map_length. fold nnz. lia. }
  assert (load_sparse bytes text dec E zero plus gd ((s1 ++ s2 ++ s3 ++ s4) ++ rest) =
    if nnz =? 0 then Ok ((srows E m, scols E m, fun _ _ => zero), rest)
    else ts <- of_option UB (overlay E zero cells nnz) ;; m' <- set_from_triplets E zero plus (srows E m) (scols E m) ts ;; Ok (m', rest)) as HL.
  { unfold load_sparse.
    rewrite <- !app_assoc, L1. cbn [bind fst snd]. rewrite L2. cbn [bind fst snd]. rewrite L3. cbn [bind fst snd]. rewrite L4. cbn [bind fst snd].
    replace (if text then dec (if text then enc (gc cells) else gc cells) else if text then enc (gc cells) else gc cells) with (gc cells)
      by (destruct text; [symmetry; apply Hb64|reflexivity]).
    rewrite Hg, Lc, Nat.eqb_refl. reflexivity. }
  rewrite HL. clear HL. cbv zeta.
  destruct (Nat.eqb_spec nnz 0) as [Z|NZ].
  - rewrite Z. unfold flipped_inside. change ((0 + 1) / 2) with 0. change (0 / 2) with 0. cbn [firstn forallb]. split; [|discriminate]. intros _.
    eexists. split; [reflexivity|]. reflexivity.
  - destruct (stored E m) as [|[[r0 c0] v0] ts] eqn:Es; [cbn in nnz; contradiction|].
    assert (0 < srows E m /\ 0 < scols E m) as [Hr Hc].
    { unfold wf_sparse in W. rewrite Es in W. inversion W as [|? ? [A B] ?]; subst. cbn in A, B. lia. }
    destruct (overlay_spec _ _ Hr Hc (map flip ((r0, c0, v0) :: ts)) nnz nnz) as [out [O1 [O2 O3]]].
    { rewrite map_length. unfold nnz. lia. }
    { lia. }
    fold cells in O1. rewrite O1. cbn [of_option bind]. unfold set_from_triplets. rewrite O3.
    unfold flipped_inside. rewrite Es.
    replace (forallb (in_range E (srows E m) (scols E m)) (firstn ((nnz + 1) / 2) (map flip ((r0, c0, v0) :: ts))))
      with (forallb (fun t => (snd (fst t) <? srows E m) && (fst (fst t) <? scols E m)) (firstn ((nnz + 1) / 2) ((r0, c0, v0) :: ts))).
    2:{ rewrite firstn_map. generalize (firstn ((nnz + 1) / 2) ((r0, c0, v0) :: ts)) as l. induction l as [|[[r c] v] l IH]; [reflexivity|].
        cbn [map forallb flip in_range fst snd]. rewrite IH. reflexivity. }
    split; intros ->; cbn [assert_then bind]; [|reflexivity].
    eexists. split; [reflexivity|]. intros i j. rewrite !sum_at_step, O2, firstn_map. apply flip_step.
Qed.
End S1.

(* ---- variants ---- *)
Section V1.
Variable V : Type.
Variable typeid : nat -> string.
Lemma variant_from target N alts s c : nth_error alts target = Some c ->
  load_variant_from bytes V (N + target) N alts s = (r <- load (named bytes "data" c) s ;; Ok ((N + target, fst r), snd r)).
Proof.
  revert N target. induction alts as [|a alts IH]; intros N target H; [destruct target; discriminate|].
  cbn [load_variant_from]. destruct target as [|target].
  - injection H as ->. rewrite Nat.add_0_r, Nat.eqb_refl. reflexivity.
  - destruct (Nat.eqb_spec N (N + S target)); [lia|]. replace (N + S target) with (S N + target) by lia. apply IH, H.
Qed.
Lemma variant_from_none target N alts s : length alts <= target -> load_variant_from bytes V (N + target) N alts s = Abort.
Proof.
  revert N target. induction alts as [|a alts IH]; intros N target H; [reflexivity|]. cbn [length] in H.
  cbn [load_variant_from]. destruct (Nat.eqb_spec N (N + target)); [lia|].
  replace (N + target) with (S N + (target - 1)) by lia. apply IH. lia.
Qed.
Lemma variant_restores version alts which v c : nth_error alts which = Some c -> restores c v ->
  restores (c_variant bytes V typeid version alts) (which, v).
Proof.
  intros Hn Hc. unfold restores. cbn [c_variant save load]. unfold save_variant, load_variant. cbn [fst snd].
  destruct (named_restores "which" _ _ (nat_restores which)) as [s1 [E1 L1]].
  destruct (named_restores "which_typeid" _ _ (string_restores (typeid which))) as [s2 [E2 L2]].
  destruct (named_restores "data" _ _ Hc) as [s3 [E3 L3]].
  rewrite E1, Hn. cbn [of_option bind]. rewrite E2, E3.
  assert (which <? length alts = true) as Hw by (apply Nat.ltb_lt, nth_error_Some; congruence).
  destruct (0 <? version) eqn:Hv; cbn [bind].
  - exists (s1 ++ s2 ++ s3). split; [reflexivity|]. intros rest. rewrite <- !app_assoc, L1. cbn [bind fst snd].
    rewrite L2. cbn [bind fst snd]. rewrite Hw. cbn [assert_then bind].
    rewrite (variant_from which 0 alts _ c Hn), L3. reflexivity.
  - exists (s1 ++ s3). split; [reflexivity|]. intros rest. rewrite <- !app_assoc, L1. cbn [bind fst snd].
    rewrite (variant_from which 0 alts _ c Hn), L3. reflexivity.
Qed.
(* an index past the alternatives *)
Lemma variant_rejects version alts which id rest : length alts <= which ->
  load (c_variant bytes V typeid version alts)
    (("which", TOpen) :: ("", TNat which) :: (if 0 <? version then [("which_typeid", TOpen); ("", TStr id)] else []) ++ rest) = Abort.
Proof.
  intros H. cbn [c_variant load]. unfold load_variant. cbn [named load c_nat next String.eqb bind Ascii.eqb Bool.eqb fst snd app].
  destruct (0 <? version) eqn:Hv; cbn.
  - rewrite (proj2 (Nat.ltb_ge which (length alts)) H). reflexivity.
  - apply (variant_from_none which 0 alts rest H).
Qed.
End V1.

Lemma pool_spec pool rest : exists s, save_pool bytes pool = Ok s /\
  load_pool bytes (s ++ rest) = Ok (match pool with Some 0 => None | Some 1 => None | p => p end, rest).
Proof.
  destruct (nat_restores (match pool with Some n => n | None => 0 end)) as [s [E L]]. exists s. split; [exact E|].
  unfold load_pool. rewrite L. cbn [bind fst snd]. destruct pool as [[|[|n]]|]; reflexivity.
Qed.

(* ---- parameters ---- *)
Variable ptid : nat -> string.
Lemma prior_restores p : restores (c_prior bytes ptid) p.
Proof.
  apply iso_restores; [reflexivity|]. apply named_restores.
  destruct p; cbn [prior_index];
    (eapply variant_restores; [reflexivity|]).
  1,2,3,4: exists []; split; reflexivity.
  1,2: match goal with |- restores (c_bounds _ _) (_ ?l ?u) =>
    destruct (pair_restores _ _ _ _ (named_restores "lower" _ _ (double_restores l)) (named_restores "upper" _ _ (double_restores u))) as [s [E L]] end;
    exists s; split; [exact E|]; intros rest; cbn [c_bounds load]; rewrite L; reflexivity.
  all: match goal with |- restores (c_musigma _ _) (_ ?l ?u) =>
    destruct (pair_restores _ _ _ _ (named_restores "mu" _ _ (real_restores l)) (named_restores "sigma" _ _ (real_restores u))) as [s [E L]] end;
    exists s; split; [exact E|]; intros rest; cbn [c_musigma load]; rewrite L; reflexivity.
Qed.
Lemma parameter_restores p : restores (c_parameter bytes ptid) p.
Proof.
  apply iso_restores; [destruct p; reflexivity|]. apply pair_restores; apply named_restores; [apply double_restores|apply prior_restores].
Qed.
Lemma store_restores (s : store) : wf_map s -> restores (c_store bytes ptid) s.
Proof. intros W. apply map_restores; [exact W|]. intros k v _. split; [apply string_restores|apply parameter_restores]. Qed.
Lemma insights_restores (s : insights) : wf_map s -> restores (c_map bytes (c_string bytes) (c_string bytes)) s.
Proof. intros W. apply map_restores; [exact W|]. intros k v _. split; apply string_restores. Qed.

Lemma gp_restores gp gp0 version : separate (gp_handler gp) -> separate (gp_handler gp0) -> wf_map (gp_insights gp) ->
  mkeys (get_params (gp_handler gp)) = mkeys (get_params (gp_handler gp0)) -> 0 < version ->
  exists s, save_gp bytes ptid gp = Ok s /\ exists gp', (forall rest, load_gp bytes ptid version gp0 (s ++ rest) = Ok (gp', rest)) /\
    gp_name gp' = gp_name gp /\ get_params (gp_handler gp') = get_params (gp_handler gp) /\ gp_insights gp' = gp_insights gp.
Proof.
  intros Hs Hs0 Wi Hk Hv. unfold save_gp, load_gp.
  destruct (separate_wf _ Hs) as [W _]. destruct (separate_wf _ Hs0) as [W0 _].
  destruct (named_restores "name" _ _ (string_restores (gp_name gp))) as [s1 [E1 L1]].
  destruct (named_restores "params" _ _ (store_restores _ W)) as [s2 [E2 L2]].
  destruct (named_restores "insights" _ _ (insights_restores _ Wi)) as [s3 [E3 L3]].
  rewrite E1, E2, E3. cbn [bind]. eexists. split; [reflexivity|].
  destruct (proj1 (C25_set_params (gp_handler gp0) (get_params (gp_handler gp)) Hs0 (wf_NoDup _ W))) as [h' [Eh [Hs' [F1 F2]]]].
  { intros k Hin. rewrite <- Hk. exact Hin. }
  exists (GpModel (gp_name gp) h' (gp_insights gp)). split.
  - intros rest. rewrite (proj2 (Nat.ltb_lt 0 version) Hv). rewrite <- !app_assoc, L1. cbn [bind fst snd]. rewrite L2. cbn [bind fst snd].
    rewrite Eh. cbn [bind]. rewrite L3. reflexivity.
  - split; [reflexivity|]. split; [|reflexivity]. cbn [gp_handler]. destruct (separate_wf _ Hs') as [W' _].
    apply map_ext_find; [exact W'|exact W|]. intros k.
    destruct (mfind k (get_params (gp_handler gp))) as [p|] eqn:Ep.
    + apply F1. apply mfind_In; assumption.
    + rewrite F2; [|apply mfind_None; assumption]. apply mfind_None; [assumption|]. rewrite <- Hk. apply mfind_None; assumption.
Qed.
Lemma gp_rejects gp gp0 version s rest : separate (gp_handler gp) -> separate (gp_handler gp0) -> wf_map (gp_insights gp) -> 0 < version ->
  (exists k, In k (mkeys (get_params (gp_handler gp))) /\ ~ In k (mkeys (get_params (gp_handler gp0)))) ->
  save_gp bytes ptid gp = Ok s -> load_gp bytes ptid version gp0 (s ++ rest) = Abort.
Proof.
  intros Hs Hs0 Wi Hv Hk Es. unfold save_gp, load_gp in *.
  destruct (separate_wf _ Hs) as [W _].
  destruct (named_restores "name" _ _ (string_restores (gp_name gp))) as [s1 [E1 L1]].
  destruct (named_restores "params" _ _ (store_restores _ W)) as [s2 [E2 L2]].
  destruct (named_restores "insights" _ _ (insights_restores _ Wi)) as [s3 [E3 L3]].
  rewrite E1, E2, E3 in Es. cbn [bind] in Es. injection Es as <-.
  rewrite (proj2 (Nat.ltb_lt 0 version) Hv). rewrite <- !app_assoc, L1. cbn [bind fst snd]. rewrite L2. cbn [bind fst snd].
  rewrite (proj2 (C25_set_params (gp_handler gp0) (get_params (gp_handler gp)) Hs0 (wf_NoDup _ W)) Hk). reflexivity.
Qed.

(* ---- aggregates ---- *)
Section A1.
Variable E : Type.
Variable zc : list E -> bytes.
Variable zd : bytes -> nat -> option (list E).
Variable gd : bytes -> option (list E).
Hypothesis Hz : zstd_ok zc zd.
Variable ic : list Z -> bytes.
Variable id_ : bytes -> nat -> option (list Z).
Variable igd : bytes -> option (list Z).
Hypothesis Hiz : zstd_ok ic id_.

Lemma distribution_restores mean cov meta : wf_matrix mean -> wf_matrix cov -> wf_map meta ->
  restores (c_distribution bytes text enc dec E zc zd gd) (mean, cov, meta).
Proof.
  intros. repeat apply pair_restores; apply named_restores; [apply dense_restores; assumption|apply dense_restores; assumption|].
  apply insights_restores. assumption.
Qed.
Lemma dataset_restores {X} (cx : codec X) xs mean cov meta meta' : Forall (restores cx) xs ->
  wf_matrix mean -> wf_matrix cov -> wf_map meta -> wf_map meta' ->
  restores (c_dataset bytes text enc dec E zc zd gd cx) (xs, (mean, cov, meta), meta').
Proof.
  intros. repeat apply pair_restores; apply named_restores.
  - apply vector_restores. assumption.
  - apply distribution_restores; assumption.
  - apply insights_restores. assumption.
Qed.
Lemma ldlt_load l : wf_ldlt l -> exists s, save_ldlt bytes text enc dec E zc zd gd ic id_ igd l = Ok s /\
  forall unset, exists m, same_ldlt l (Ldlt E m (l_transpositions E l) (l_initialized E l) None) /\
    forall l0 rest, load_ldlt bytes text enc dec E zc zd gd ic id_ igd unset l0 (s ++ rest) =
      Ok (Ldlt E m (l_transpositions E l) (l_initialized E l) (l_l1_norm E l0), rest).
Proof.
  intros [W [Hsq Wt]]. unfold save_ldlt.
  destruct (lower_restores E zc zd gd Hz (l_matrix E l) W ltac:(lia)) as [s1 [E1 L1]].
  destruct (named_restores "transpositions" _ _ (named_restores "indices" _ _ (dense_restores Z ic id_ igd Hiz _ Wt))) as [s2 [E2 L2]].
  destruct (named_restores "is_initialized" _ _ (bool_restores (l_initialized E l))) as [s3 [E3 L3]].
  rewrite E1, E2, E3. cbn [bind]. eexists. split; [reflexivity|]. intros unset. destruct (L1 unset) as [m [Lm [Wm [Rm [Cm Em]]]]].
  exists m. split.
  - unfold same_ldlt. cbn. repeat split; try congruence. intros i j Hj Hi. rewrite Em by lia. rewrite (proj2 (Nat.leb_le j i)) by lia. reflexivity.
  - intros l0 rest. unfold load_ldlt. rewrite <- !app_assoc, Lm. cbn [bind fst snd]. rewrite L2. cbn [bind fst snd]. rewrite L3. reflexivity.
Qed.
Lemma ldlt_restores unset l : wf_ldlt l -> restores_upto same_ldlt (c_ldlt bytes text enc dec E zc zd gd ic id_ igd unset) l.
Proof.
  intros W. destruct (ldlt_load l W) as [s [Es L]]. exists s. split; [exact Es|]. destruct (L unset) as [m [Hm Lm]].
  eexists. split; [|intros rest; cbn [c_ldlt load]; apply Lm]. exact Hm.
Qed.
Lemma ldlt_l1_lost unset l s l' rest : wf_ldlt l -> l_initialized E l = true ->
  save_ldlt bytes text enc dec E zc zd gd ic id_ igd l = Ok s ->
  load (c_ldlt bytes text enc dec E zc zd gd ic id_ igd unset) (s ++ rest) = Ok (l', rest) -> l1_norm E l' = UB.
Proof.
  intros W Hi Es El. destruct (ldlt_load l W) as [s' [Es' L]]. rewrite Es in Es'. injection Es' as <-. destruct (L unset) as [m [_ Lm]].
  cbn [c_ldlt load] in El. rewrite Lm in El. injection El as <-. unfold l1_norm. cbn. rewrite Hi. reflexivity.
Qed.
Lemma ldlt_eq_spec eqb a b : (forall x, eqb x x = true) -> same_ldlt a b -> ldlt_eq E eqb a b = Ok true.
Proof.
  intros Hr [H1 [H2 [H3 [H4 H5]]]]. unfold ldlt_eq. rewrite H5, H4. destruct (l_initialized E a); [|reflexivity]. cbn [negb andb assert_then].
  f_equal. rewrite !andb_true_iff. split; [split|].
  - unfold lower_equal. rewrite H1, H2, !Nat.eqb_refl. cbn [andb]. apply forallb_forall. intros i Hi. apply forallb_forall. intros j Hj.
    apply in_seq in Hi, Hj. rewrite H3 by lia. destruct (entry E (l_matrix E a) i j); [apply Hr|reflexivity].
  - apply Nat.eqb_refl.
  - apply forallb_forall. intros [x y] Hin. apply Z.eqb_eq. cbn. clear - Hin.
    induction (data Z (l_transpositions E a)) as [|z d IH]; [contradiction|]. cbn in Hin. destruct Hin as [Hin|Hin]; [congruence|apply IH, Hin].
Qed.
(* comparing with one that is not initialized *)
Lemma ldlt_eq_uninitialized eqb a b : l_initialized E a <> l_initialized E b -> ldlt_eq E eqb a b = Abort.
Proof. unfold ldlt_eq. destruct (l_initialized E a), (l_initialized E b); intros; try congruence; reflexivity. Qed.

Lemma gp_fit_restores {X C} (cx : codec X) R (cc : codec C) info cov xs : wf_matrix info -> restores_upto R cc cov -> Forall (restores cx) xs ->
  restores_upto (fun p q => fst (fst p) = fst (fst q) /\ R (snd (fst p)) (snd (fst q)) /\ snd p = snd q)
    (c_gp_fit bytes text enc dec E zc zd gd cx cc) (info, cov, xs).
Proof.
  intros H1 H2 H3.
  destruct (pair_upto _ _ _ _ _ _
    (pair_upto _ _ _ _ _ _ (named_upto eq "information" _ _ (proj1 (restores_eq _ _) (dense_restores E zc zd gd Hz info H1)))
       (named_upto R "train_ldlt" _ _ H2))
    (named_upto eq "train_features" _ _ (proj1 (restores_eq _ _) (vector_restores cx xs H3)))) as [s [Es [y [[[A B] D] L]]]].
  exists s. split; [exact Es|]. exists y. tauto.
Qed.
Lemma sparse_fit_restores {X C} (cx : codec X) R (cc : codec C) version info cov xs Rm P rank :
  wf_matrix info -> restores_upto R cc cov -> Forall (restores cx) xs -> wf_matrix Rm -> wf_matrix P ->
  exists s, save_sparse_fit bytes text enc dec E zc zd gd ic id_ igd cx cc version ((info, cov, xs), (Rm, P), rank) = Ok s /\
  exists cov', R cov cov' /\ forall rest,
    load_sparse_fit bytes text enc dec E zc zd gd ic id_ igd cx cc version (s ++ rest) =
    Ok (((info, cov', xs), (Rm, P), if 1 <? version then rank else (-1)%Z), rest).
Proof.
  intros H1 H2 H3 H4 H5. unfold save_sparse_fit.
  destruct (pair_upto _ _ _ _ _ _
    (pair_upto _ _ _ _ _ _ (named_upto eq "information" _ _ (proj1 (restores_eq _ _) (dense_restores E zc zd gd Hz info H1)))
       (named_upto R "train_covariance" _ _ H2))
    (named_upto eq "train_features" _ _ (proj1 (restores_eq _ _) (vector_restores cx xs H3)))) as [s [Es [[[i' c'] x'] [[[A B] D] L]]]].
  cbn [fst snd] in A, B, D. subst i' x'.
  destruct (pair_restores _ _ _ _ (named_restores "R" _ _ (dense_restores E zc zd gd Hz Rm H4))
    (named_restores "P" _ _ (named_restores "indices" _ _ (dense_restores Z ic id_ igd Hiz P H5)))) as [s2 [E2 L2]].
  destruct (named_restores "numerical_rank" _ _ (int_restores rank)) as [s3 [E3 L3]].
  rewrite Es, E2, E3. cbn [bind]. destruct (1 <? version) eqn:Hv; cbn [bind].
  - eexists. split; [reflexivity|]. exists c'. split; [exact B|]. intros rest. unfold load_sparse_fit. rewrite Hv.
    rewrite <- !app_assoc, L. cbn [bind fst snd]. rewrite L2. cbn [bind fst snd]. rewrite L3. reflexivity.
  - eexists. split; [reflexivity|]. exists c'. split; [exact B|]. intros rest. unfold load_sparse_fit. rewrite Hv.
    rewrite app_nil_r, <- !app_assoc, L. cbn [bind fst snd]. rewrite L2. reflexivity.
Qed.
Lemma block_symmetric_restores {C} R (cc : codec C) a b s : restores_upto R cc a -> restores_upto R cc s -> wf_matrix b ->
  restores_upto (fun p q => R (fst (fst p)) (fst (fst q)) /\ snd (fst p) = snd (fst q) /\ R (snd p) (snd q))
    (c_block_symmetric bytes text enc dec E zc zd gd cc) (a, b, s).
Proof.
  intros H1 H2 H3.
  destruct (pair_upto _ _ _ _ _ _ (pair_upto _ _ _ _ _ _ (named_upto R "A" _ _ H1)
      (named_upto eq "Ai_B" _ _ (proj1 (restores_eq _ _) (dense_restores E zc zd gd Hz b H3)))) (named_upto R "S" _ _ H2))
    as [st [Es [y [[[A B] D] L]]]].
  exists st. split; [exact Es|]. exists y. tauto.
Qed.
Lemma linear_combination_restores {X} (cx : codec X) xs coefs : Forall (restores cx) xs -> wf_matrix coefs ->
  restores (c_linear_combination bytes text enc dec E zc zd gd cx) (xs, coefs).
Proof. intros. apply pair_restores; apply named_restores; [apply vector_restores|apply dense_restores]; assumption. Qed.
End A1.
Lemma ransac_iteration_restores {K} `{OrdKey K} (ck : codec K) cands inl outl v : (forall k, restores ck k) -> wf_map inl -> wf_map outl ->
  restores (c_ransac_iteration bytes ck) (cands, inl, outl, v).
Proof.
  intros Hk W1 W2. repeat apply pair_restores; apply named_restores.
  - apply vector_restores, Forall_forall. auto.
  - apply map_restores; [exact W1|]. intros. split; [apply Hk|apply double_restores].
  - apply map_restores; [exact W2|]. intros. split; [apply Hk|apply double_restores].
  - apply double_restores.
Qed.
Lemma ransac_output_restores {K} `{OrdKey K} (ck : codec K) code best its : (forall k, restores ck k) ->
  Forall (fun it : list K * smap K xr * smap K xr * xr => wf_map (snd (fst (fst it))) /\ wf_map (snd (fst it))) (best :: its) ->
  restores (c_ransac_output bytes ck) (code, best, its).
Proof.
  intros Hk F. inversion F as [|? ? [W1 W2] F']; subst. repeat apply pair_restores; apply named_restores.
  - apply int_restores.
  - destruct best as [[[a b] c] d]. apply ransac_iteration_restores; assumption.
  - apply vector_restores. eapply Forall_impl; [|exact F']. intros [[[a b] c] d] [A B]. apply ransac_iteration_restores; assumption.
Qed.
Lemma fit_model_restores {F} R (cf : codec F) gp gp0 version f : separate (gp_handler gp) -> separate (gp_handler gp0) -> wf_map (gp_insights gp) ->
  mkeys (get_params (gp_handler gp)) = mkeys (get_params (gp_handler gp0)) -> 0 < version -> restores_upto R cf f ->
  exists s, save_fit_model bytes ptid cf (gp, f) = Ok s /\ exists gp' f',
    (forall rest, load_fit_model bytes ptid cf version gp0 (s ++ rest) = Ok ((gp', f'), rest)) /\
    gp_name gp' = gp_name gp /\ get_params (gp_handler gp') = get_params (gp_handler gp) /\ gp_insights gp' = gp_insights gp /\ R f f'.
Proof.
  intros H1 H2 H3 H4 H5 H6. destruct (gp_restores gp gp0 version H1 H2 H3 H4 H5) as [s1 [E1 [gp' [L1 [A [B C]]]]]].
  destruct (named_upto R "fit" _ _ H6) as [s2 [E2 [f' [HR L2]]]].
  unfold save_fit_model. cbn [fst snd]. rewrite E1. cbn [bind]. rewrite E2. cbn [bind]. eexists. split; [reflexivity|].
  exists gp', f'. split; [|auto]. intros rest. unfold load_fit_model. cbn [next app]. rewrite String.eqb_refl. cbn [bind].
  rewrite <- app_assoc, L1. cbn [bind fst snd]. rewrite L2. reflexivity.
Qed.
End D.
End P.
