From Coq Require Import Reals Lra Permutation.
From Verif Require Import Base BaseProofs StdMapModel StdMapProofs FoldsModel FoldsProofs AsyncModel AsyncProofs
  CovMatrixModel CovMatrixSpec CovMatrixProofs BlockDiagModel BlockDiagSpec BlockDiagProofs.

Definition lsumR (l : list R) : R := fold_right Rplus 0%R l.

Lemma block_sum_spec zs p q : zs <> [] -> Forall (fun z => drows z = p /\ dcols z = q) zs ->
  exists out, block_sum zs = Ok out /\ drows out = p /\ dcols out = q /\
    forall i j, dat out i j = lsumR (map (fun z => dat z i j) zs).
Proof.
  intros Hne HF. destruct zs as [|z zs]; [contradiction|]. inversion HF as [|? ? [E1 E2] HF']; subst. cbn [block_sum].
  assert (forall acc, drows acc = drows z -> dcols acc = dcols z -> exists out, foldM dadd zs acc = Ok out /\
    drows out = drows z /\ dcols out = dcols z /\ forall i j, dat out i j = (dat acc i j + lsumR (map (fun z => dat z i j) zs))%R) as G.
  { clear HF Hne. induction HF' as [|w ws [W1 W2] HF' IH]; intros acc A1 A2.
    - exists acc. cbn. repeat split; auto. intros. change R0 with 0%R. lra.
    - cbn [foldM]. unfold dadd at 1, same_size at 1. rewrite A1, A2, W1, W2, !Nat.eqb_refl. cbn [andb bind].
      destruct (IH (Dmx (drows z) (dcols z) (fun i j => (dat acc i j + dat w i j)%R)) eq_refl eq_refl) as [out [E [O1 [O2 O3]]]].
      exists out. split; [exact E|]. split; [exact O1|]. split; [exact O2|]. intros i j. rewrite O3. cbn [dat map lsumR fold_right]. unfold lsumR. lra. }
  destruct (G z eq_refl eq_refl) as [out [E [O1 [O2 O3]]]]. exists out. repeat split; auto.
Qed.

Section Grouped.
Context {K : Type} `{OrdKey K}.

Lemma mfind_combine {V} (m : smap K V) k v : wf_map m -> In (k, v) m -> mfind k m = Some v.
Proof. intros W Hin. apply mfind_In; assumption. Qed.

Lemma accumulate_keys {X Y} (lhs : smap K X) (rhs : smap K Y) (f : X -> Y -> outcome dmx) : wf_map lhs -> wf_map rhs -> mkeys lhs = mkeys rhs ->
  mapM (fun key => assert_then (mcontains key lhs && mcontains key rhs)
                     (x <- mat key lhs ;; y <- mat key rhs ;; f x y)) (mkeys lhs) =
  mapM (fun xy => f (fst xy) (snd xy)) (combine (mvals lhs) (mvals rhs)).
Proof.
  intros W1 W2 Hk.
  assert (forall (l : smap K X) (r : smap K Y), incl l lhs -> incl r rhs -> mkeys l = mkeys r ->
    mapM (fun key => assert_then (mcontains key lhs && mcontains key rhs)
                     (x <- mat key lhs ;; y <- mat key rhs ;; f x y)) (mkeys l) =
    mapM (fun xy => f (fst xy) (snd xy)) (combine (mvals l) (mvals r))) as G.
  { induction l as [|[k x] l IH]; intros r I1 I2 E; destruct r as [|[k' y] r]; try discriminate; [reflexivity|].
    cbn in E. injection E as <- E. cbn [mkeys mvals map combine mapM fst snd].
    unfold mcontains at 1 2, mat at 1 2. rewrite (mfind_combine lhs k x W1 (I1 _ (or_introl eq_refl))).
    rewrite (mfind_combine rhs k y W2 (I2 _ (or_introl eq_refl))). cbn [andb assert_then bind].
    fold (mkeys l). fold (mvals l). fold (mvals r).
    rewrite (IH r); [reflexivity| | |exact E].
    - intros a Ha. apply I1. right. exact Ha.
    - intros a Ha. apply I2. right. exact Ha. }
  apply G; [apply incl_refl|apply incl_refl|exact Hk].
Qed.

Lemma block_accumulate_spec {X Y} (lhs : smap K X) (rhs : smap K Y) (f : X -> Y -> outcome dmx) p q zs :
  wf_map lhs -> wf_map rhs -> mkeys lhs = mkeys rhs -> lhs <> [] ->
  Forall2 (fun xy z => f (fst xy) (snd xy) = Ok z /\ drows z = p /\ dcols z = q) (combine (mvals lhs) (mvals rhs)) zs ->
  exists out, block_accumulate lhs rhs f = Ok out /\ drows out = p /\ dcols out = q /\
    forall i j, dat out i j = lsumR (map (fun z => dat z i j) zs).
Proof.
  intros W1 W2 Hk Hne HF. unfold block_accumulate.
  assert (length lhs = length rhs) as Hl.
  { apply (f_equal (@length K)) in Hk. unfold mkeys in Hk. rewrite !map_length in Hk. exact Hk. }
  rewrite (proj2 (Nat.eqb_eq _ _) Hl). cbn [assert_then].
  destruct (Nat.ltb_spec 0 (length lhs)); [|destruct lhs; [contradiction|cbn in *; lia]]. cbn [assert_then].
  rewrite (accumulate_keys lhs rhs f W1 W2 Hk).
  assert (mapM (fun xy => f (fst xy) (snd xy)) (combine (mvals lhs) (mvals rhs)) = Ok zs) as ->.
  { clear -HF. induction HF as [|xy z l zs [E _] HF IH]; [reflexivity|]. cbn [mapM]. rewrite E. cbn [bind]. rewrite IH. reflexivity. }
  cbn [bind]. apply block_sum_spec.
  - intros ->. inversion HF as [E|]. destruct lhs, rhs; try discriminate. contradiction.
  - clear -HF. induction HF as [|xy z l zs [_ E] HF IH]; constructor; auto.
Qed.

Lemma block_accumulate_abort {X Y} (lhs : smap K X) (rhs : smap K Y) (f : X -> Y -> outcome dmx) : wf_map lhs -> wf_map rhs ->
  (forall k x y, In (k, x) lhs -> In (k, y) rhs -> is_ok (f x y) = true) ->
  lhs = [] \/ ~ (forall k, In k (mkeys lhs) <-> In k (mkeys rhs)) ->
  block_accumulate lhs rhs f = Abort.
Proof.
  intros W1 W2 Hf Hc. unfold block_accumulate.
  destruct (Nat.eqb_spec (length lhs) (length rhs)) as [Hl|]; cbn [assert_then]; [|reflexivity].
  destruct (Nat.ltb_spec 0 (length lhs)) as [Hp|]; cbn [assert_then]; [|reflexivity].
  destruct Hc as [->|Hc]; [cbn in Hp; lia|].
  assert (exists k, In k (mkeys lhs) /\ ~ In k (mkeys rhs)) as [k0 [I1 I2]].
  { destruct (Exists_dec (fun k => ~ In k (mkeys rhs)) (mkeys lhs)) as [He|He].
    - intros k. destruct (mfind k rhs) as [v|] eqn:E.
      + right. intros C. apply C. apply mfind_In_keys in E. apply (in_map fst) in E. exact E.
      + left. intros C. apply mfind_None in E; [|exact W2]. contradiction.
    - apply Exists_exists in He. exact He.
    - exfalso. apply Hc.
      assert (incl (mkeys lhs) (mkeys rhs)) as Hi.
      { intros k Hk. destruct (mfind k rhs) as [v|] eqn:E; [apply mfind_In_keys in E; apply (in_map fst) in E; exact E|].
        exfalso. apply He. apply Exists_exists. exists k. split; [exact Hk|]. apply (mfind_None k rhs W2). exact E. }
      assert (length (mkeys rhs) <= length (mkeys lhs)) as Hle by (unfold mkeys; rewrite !map_length; lia).
      pose proof (NoDup_length_incl (wf_NoDup _ W1) Hle Hi) as Hi'.
      intros k. split; auto. }
  assert (forall ks, incl ks (mkeys lhs) -> In k0 ks ->
    mapM (fun key => assert_then (mcontains key lhs && mcontains key rhs)
                     (x <- mat key lhs ;; y <- mat key rhs ;; f x y)) ks = Abort) as G.
  { induction ks as [|k ks IH]; intros Hi Hin; [destruct Hin|]. cbn [mapM].
    unfold mcontains at 1 2, mat at 1 2.
    destruct (mfind k lhs) as [x|] eqn:E1; [|reflexivity].
    destruct (mfind k rhs) as [y|] eqn:E2; [|reflexivity]. cbn [andb assert_then bind].
    destruct (f x y) as [z| | |] eqn:E3;
      try (specialize (Hf k x y (mfind_In_keys _ _ _ E1) (mfind_In_keys _ _ _ E2)); rewrite E3 in Hf; discriminate).
    cbn [bind]. destruct Hin as [->|Hin].
    - exfalso. apply I2. apply mfind_In_keys in E2. apply (in_map fst) in E2. exact E2.
    - rewrite IH; [reflexivity| |exact Hin]. intros a Ha. apply Hi. right. exact Ha. }
  rewrite (G (mkeys lhs) (incl_refl _) I1). reflexivity.
Qed.

(* the sum of the products of the blocks is the product of the stacks *)
Lemma stacked_products xs : forall ys i j, Forall2 (fun x y => drows x = drows y) xs ys ->
  lsumR (map (fun xy => rsum (fun k => (dat (fst xy) k i * dat (snd xy) k j)%R) (drows (fst xy))) (combine xs ys)) =
  rsum (fun k => (stacked xs k i * stacked ys k j)%R) (sum_rows xs).
Proof.
  induction xs as [|x xs IH]; intros ys i j HF; inversion HF; subst; [reflexivity|].
  cbn [combine map lsumR fold_right fst snd]. fold (lsumR (map (fun xy => rsum (fun k => (dat (fst xy) k i * dat (snd xy) k j)%R) (drows (fst xy))) (combine xs l'))).
  rewrite IH by assumption. unfold sum_rows. cbn [map]. rewrite lsc, rsum_split. fold (sum_rows xs). f_equal.
  - apply rsum_ext. intros k Hk. cbn [stacked]. rewrite <- H2.
    destruct (Nat.ltb_spec k (drows x)); [reflexivity|lia].
  - apply rsum_ext. intros k Hk. cbn [stacked]. rewrite <- H2.
    destruct (Nat.ltb_spec (drows x + k) (drows x)); [lia|]. replace (drows x + k - drows x) with k by lia. reflexivity.
Qed.

Lemma lsumR_ext {A} (f g : A -> R) l : (forall a, In a l -> f a = g a) -> lsumR (map f l) = lsumR (map g l).
Proof. intros E. f_equal. apply map_ext_in. exact E. Qed.

Lemma block_inner_product_spec (lhs rhs : smap K dmx) p q :
  wf_map lhs -> wf_map rhs -> mkeys lhs = mkeys rhs -> lhs <> [] ->
  Forall2 (fun x y => drows x = drows y /\ dcols x = p /\ dcols y = q) (mvals lhs) (mvals rhs) ->
  exists out, block_inner_product lhs rhs = Ok out /\ drows out = p /\ dcols out = q /\
    forall i j, dat out i j = rsum (fun k => (stacked (mvals lhs) k i * stacked (mvals rhs) k j)%R) (sum_rows (mvals lhs)).
Proof.
  intros W1 W2 Hk Hne HF. unfold block_inner_product.
  destruct (block_accumulate_spec lhs rhs (fun x y => dmul (dtr x) y) p q
    (map (fun xy => Dmx p q (fun i j => rsum (fun k => (dat (fst xy) k i * dat (snd xy) k j)%R) (drows (fst xy))))
         (combine (mvals lhs) (mvals rhs))) W1 W2 Hk Hne) as [out [E [O1 [O2 O3]]]].
  - clear -HF. induction HF as [|x y xs ys [E1 [E2 E3]] HF IH]; [constructor|].
    cbn [combine map]. constructor; [|exact IH]. cbn [fst snd]. unfold dmul, dtr. cbn [dcols drows dat].
    rewrite E1, Nat.eqb_refl, E2, E3. auto.
  - exists out. repeat split; auto. intros i j. rewrite O3, map_map. cbn [dat]. apply stacked_products.
    clear -HF. induction HF as [|x y xs ys [E1 _] HF IH]; constructor; auto.
Qed.

Lemma block_product_spec (lhs rhs : smap K dmx) p q :
  wf_map lhs -> wf_map rhs -> mkeys lhs = mkeys rhs -> lhs <> [] ->
  Forall2 (fun x y => dcols x = drows y /\ drows x = p /\ dcols y = q) (mvals lhs) (mvals rhs) ->
  exists out, block_product lhs rhs = Ok out /\ drows out = p /\ dcols out = q /\
    forall i j, dat out i j =
      rsum (fun k => (stacked (map dtr (mvals lhs)) k i * stacked (mvals rhs) k j)%R) (sum_rows (mvals rhs)).
Proof.
  intros W1 W2 Hk Hne HF. unfold block_product.
  destruct (block_accumulate_spec lhs rhs dmul p q
    (map (fun xy => Dmx p q (fun i j => rsum (fun k => (dat (fst xy) k i * dat (snd xy) k j)%R) (drows (fst xy))))
         (combine (map dtr (mvals lhs)) (mvals rhs))) W1 W2 Hk Hne) as [out [E [O1 [O2 O3]]]].
  - clear -HF. induction HF as [|x y xs ys [E1 [E2 E3]] HF IH]; [constructor|].
    cbn [combine map]. constructor; [|exact IH]. cbn [fst snd]. unfold dmul, dtr. cbn [dcols drows dat].
    rewrite E1, Nat.eqb_refl, E2, E3. auto.
  - exists out. repeat split; auto. intros i j. rewrite O3, map_map. cbn [dat].
    rewrite stacked_products.
    + f_equal. unfold sum_rows. rewrite map_map. cbn [dtr drows].
      clear -HF. induction HF as [|x y xs ys [E1 _] HF IH]; [reflexivity|]. cbn [map]. rewrite !lsc. congruence.
    + clear -HF. induction HF as [|x y xs ys [E1 _] HF IH]; constructor; auto.
Qed.

(* ---- maps ---- *)
Lemma apply_missing {V W} (lhs : smap K V) (rhs : smap K W) (f : V -> W -> outcome dmx) k : wf_map rhs ->
  (forall k x y, In (k, x) lhs -> In (k, y) rhs -> is_ok (f x y) = true) ->
  In k (mkeys rhs) -> ~ In k (mkeys lhs) ->
  apply_mapM rhs (fun key y => x <- mat key lhs ;; f x y) = Throw.
Proof.
  intros W2 Hf Hin Hn. rewrite apply_mapM_via_mapM by exact W2.
  assert (forall l, incl l rhs -> In k (map fst l) ->
    mapM (fun kv => x <- mat (fst kv) lhs ;; f x (snd kv)) l = Throw) as G.
  { induction l as [|[k' y] l IH]; intros Hi Hk; [destruct Hk|]. cbn [mapM fst snd]. unfold mat at 1.
    destruct (mfind k' lhs) as [x|] eqn:E1; [|reflexivity]. cbn [bind].
    destruct (f x y) as [z| | |] eqn:E3;
      try (specialize (Hf k' x y (mfind_In_keys _ _ _ E1) (Hi _ (or_introl eq_refl))); rewrite E3 in Hf; discriminate).
    cbn [bind]. destruct Hk as [Hk|Hk].
    - cbn in Hk. subst k'. exfalso. apply Hn. apply mfind_In_keys in E1. apply (in_map fst) in E1. exact E1.
    - rewrite IH; [reflexivity| |exact Hk]. intros a Ha. apply Hi. right. exact Ha. }
  rewrite (G rhs (incl_refl _) Hin). reflexivity.
Qed.

Lemma apply_found {V W} (lhs : smap K V) (rhs : smap K W) (f : V -> W -> outcome dmx) : wf_map lhs -> wf_map rhs ->
  mkeys lhs = mkeys rhs ->
  apply_mapM rhs (fun key y => x <- mat key lhs ;; f x y) =
  (zs <- mapM (fun xy => f (fst xy) (snd xy)) (combine (mvals lhs) (mvals rhs)) ;; Ok (combine (mkeys rhs) zs)).
Proof.
  intros W1 W2 Hk. rewrite apply_mapM_via_mapM by exact W2. f_equal.
  assert (forall (l : smap K V) (r : smap K W), incl l lhs -> incl r rhs -> mkeys l = mkeys r ->
    mapM (fun kv => x <- mat (fst kv) lhs ;; f x (snd kv)) r =
    mapM (fun xy => f (fst xy) (snd xy)) (combine (mvals l) (mvals r))) as G.
  { induction l as [|[k x] l IH]; intros r I1 I2 E; destruct r as [|[k' y] r]; try discriminate; [reflexivity|].
    cbn in E. injection E as <- E. cbn [mvals map combine mapM fst snd].
    unfold mat at 1. rewrite (mfind_combine lhs k x W1 (I1 _ (or_introl eq_refl))). cbn [bind].
    fold (mvals l). fold (mvals r). rewrite (IH r); [reflexivity| | |exact E].
    - intros a Ha. apply I1. right. exact Ha.
    - intros a Ha. apply I2. right. exact Ha. }
  apply G; [apply incl_refl|apply incl_refl|exact Hk].
Qed.

Lemma block_subtract_spec (lhs rhs : smap K dmx) : wf_map lhs -> wf_map rhs -> mkeys lhs = mkeys rhs ->
  Forall2 (fun x y => drows x = drows y /\ dcols x = dcols y) (mvals lhs) (mvals rhs) ->
  exists out, block_subtract lhs rhs = Ok out /\ mkeys out = mkeys lhs /\
    Forall2 (fun d x => drows d = drows x /\ dcols d = dcols x) (mvals out) (mvals lhs) /\
    forall i j, stacked (mvals out) i j = (stacked (mvals lhs) i j - stacked (mvals rhs) i j)%R.
Proof.
  intros W1 W2 Hk HF. unfold block_subtract.
  assert (length lhs = length rhs) as Hl.
  { apply (f_equal (@length K)) in Hk. unfold mkeys in Hk. rewrite !map_length in Hk. exact Hk. }
  rewrite (proj2 (Nat.eqb_eq _ _) Hl). cbn [assert_then]. rewrite (apply_found lhs rhs dsub W1 W2 Hk).
  assert (exists zs, mapM (fun xy => dsub (fst xy) (snd xy)) (combine (mvals lhs) (mvals rhs)) = Ok zs /\
    length zs = length (mvals rhs) /\
    Forall2 (fun d x => drows d = drows x /\ dcols d = dcols x) zs (mvals lhs) /\
    forall i j, stacked zs i j = (stacked (mvals lhs) i j - stacked (mvals rhs) i j)%R) as [zs [E [L [H1 H2]]]].
  { clear -HF. induction HF as [|x y xs ys [E1 E2] HF [zs [E [L [H1 H2]]]]].
    - exists []. cbn. repeat split; auto. intros. change R0 with 0%R. lra.
    - cbn [combine mapM fst snd]. rewrite dsub_ok by assumption. cbn [bind]. rewrite E. cbn [bind]. eexists. split; [reflexivity|].
      split; [cbn; lia|]. split; [constructor; cbn; auto|]. intros i j. cbn [stacked drows dat]. rewrite <- E1.
      destruct (i <? drows x); auto. }
  rewrite E. cbn [bind]. eexists. split; [reflexivity|].
  assert (mvals (combine (mkeys rhs) zs) = zs) as ->
    by (unfold mvals; apply map_snd_combine; unfold mkeys, mvals in *; rewrite map_length in *; congruence).
  assert (mkeys (combine (mkeys rhs) zs) = mkeys lhs) as ->.
  { unfold mkeys at 1. rewrite map_fst_combine; [symmetry; exact Hk|]. unfold mkeys, mvals in *. rewrite map_length in *. congruence. }
  auto.
Qed.

Lemma block_diag_solve_spec (lhs : smap K (dmx -> outcome dmx)) (rhs : smap K dmx) Ms q :
  wf_map lhs -> wf_map rhs -> mkeys lhs = mkeys rhs ->
  Forall2 multiplies (mvals lhs) Ms ->
  Forall2 (fun M y => dcols M = drows y /\ dcols y = q) Ms (mvals rhs) ->
  exists out, block_diag_solve lhs rhs = Ok out /\ mkeys out = mkeys rhs /\
    Forall2 (fun d M => drows d = drows M /\ dcols d = q) (mvals out) Ms /\
    forall i j, i < sum_rows Ms -> j < q -> stacked (mvals out) i j =
      rsum (fun k => (dense_at Ms i k * stacked (mvals rhs) k j)%R) (sum_cols Ms).
Proof.
  intros W1 W2 Hk HF HG. unfold block_diag_solve.
  rewrite (apply_found lhs rhs (fun s x => s x) W1 W2 Hk).
  assert (exists zs, mapM (fun xy : (dmx -> outcome dmx) * dmx => (fst xy) (snd xy)) (combine (mvals lhs) (mvals rhs)) = Ok zs /\
    length zs = length (mvals rhs) /\
    Forall2 (fun d M => drows d = drows M /\ dcols d = q) zs Ms /\
    forall i j, i < sum_rows Ms -> j < q -> stacked zs i j =
      rsum (fun k => (dense_at Ms i k * stacked (mvals rhs) k j)%R) (sum_cols Ms)) as [zs [E [L [H1 H2]]]].
  { clear -HF HG. revert HG. generalize (mvals rhs) as ys.
    induction HF as [|s M ss Ms Hm HF IH]; intros ys HG; inversion HG as [|? y ? ys' [E1 E2] HG']; subst.
    - exists []. cbn. repeat split; auto.
    - destruct (IH _ HG') as [zs [E [L [H1 H2]]]].
      destruct (Hm y ltac:(congruence)) as [v [Ev [V1 [V2 V3]]]].
      cbn [combine mapM fst snd]. rewrite Ev. cbn [bind]. rewrite E. cbn [bind]. eexists. split; [reflexivity|].
      split; [cbn; lia|]. split; [constructor; auto|]. intros i j Hi Hj.
      rewrite (dense_row (M :: Ms) i _ (fun k => stacked (y :: ys') k j) eq_refl Hi). cbn [stacked]. rewrite V1.
      destruct (Nat.ltb_spec i (drows M)) as [Hl|Hl].
      + rewrite V3 by assumption. apply rsum_ext. intros k Hk. cbn [stacked]. destruct (Nat.ltb_spec k (drows y)); [reflexivity|lia].
      + unfold sum_rows in Hi. cbn [map] in Hi. rewrite lsc in Hi. fold (sum_rows Ms) in Hi. rewrite H2 by lia.
        apply rsum_ext. intros k Hk. cbn [stacked]. destruct (Nat.ltb_spec (dcols M + k) (drows y)); [lia|].
        replace (dcols M + k - drows y) with k by lia. reflexivity. }
  rewrite E. cbn [bind]. eexists. split; [reflexivity|].
  assert (mvals (combine (mkeys rhs) zs) = zs) as ->
    by (unfold mvals; apply map_snd_combine; unfold mkeys, mvals in *; rewrite map_length in *; congruence).
  assert (mkeys (combine (mkeys rhs) zs) = mkeys rhs) as ->.
  { unfold mkeys at 1. rewrite map_fst_combine; [reflexivity|]. unfold mkeys, mvals in *. rewrite map_length in *. congruence. }
  auto.
Qed.
End Grouped.

(* ---- vertical_stack ---- *)
Lemma vstack_rows cols bs : forall n,
  foldM (fun rows b => assert_then (dcols b =? cols) (Ok (rows + drows b))) bs n =
  if forallb (fun b => dcols b =? cols) bs then Ok (n + sum_rows bs) else Abort.
Proof.
  induction bs as [|b bs IH]; intros n; cbn [foldM forallb]; [rewrite Nat.add_0_r; reflexivity|].
  destruct (dcols b =? cols); cbn [assert_then bind andb]; [|reflexivity]. rewrite IH.
  destruct (forallb _ bs); [|reflexivity]. unfold sum_rows. cbn [map]. rewrite lsc, Nat.add_assoc. reflexivity.
Qed.

Lemma vertical_stack_spec b0 bs : Forall (fun b => dcols b = dcols b0) bs ->
  matrix_is (vertical_stack (b0 :: bs)) (sum_rows (b0 :: bs)) (dcols b0) (stacked (b0 :: bs)).
Proof.
  intros HF. unfold vertical_stack. rewrite vstack_rows.
  assert (Forall (fun b => dcols b = dcols b0) (b0 :: bs)) as HF' by (constructor; auto).
  assert (forallb (fun b => dcols b =? dcols b0) (b0 :: bs) = true) as ->.
  { apply forallb_forall. intros b Hb. apply Nat.eqb_eq. rewrite Forall_forall in HF'. auto. }
  cbn [bind]. rewrite Nat.add_0_l.
  apply (stack_is (b0 :: bs)); [right; apply holds_zeros|exact HF'|reflexivity].
Qed.
Lemma vertical_stack_abort b0 bs : ~ Forall (fun b => dcols b = dcols b0) bs -> vertical_stack (b0 :: bs) = Abort.
Proof.
  intros Hn. unfold vertical_stack. rewrite vstack_rows.
  destruct (forallb (fun b => dcols b =? dcols b0) (b0 :: bs)) eqn:E; [|reflexivity].
  exfalso. apply Hn. apply Forall_forall. intros b Hb. apply Nat.eqb_eq.
  rewrite forallb_forall in E. apply E. right. exact Hb.
Qed.
