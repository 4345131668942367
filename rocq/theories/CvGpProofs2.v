(* Cross validation of a Gaussian process against refitting *)
From Verif Require Import Base BaseProofs StdMapModel StdMapProofs StringKeyModel IndexingModel IndexingSpec IndexingProofs
  DatasetModel DatasetSpec DatasetProofs FoldsModel FoldsProofs.
From mathcomp Require Import all_ssreflect all_algebra.
From Verif Require Import GpModel GpSpec GpProofs GpProofs2 GpHistory GpProofs3 PsdProofs GpExamples RansacGpModel RansacGpProofs
  CvGpModel CvGpSpec CvGpProofs.
Set Implicit Arguments.
Unset Strict Implicit.
Unset Printing Implicit Defensive.
Import GRing.Theory.
Local Open Scope ring_scope.

Lemma apply_mapM_eq K {OK : OrdKey K} V W (f g : K -> V -> outcome W) (m : smap K V) :
  (forall k v, List.In (k, v) m -> f k v = g k v) -> apply_mapM m f = apply_mapM m g.
Proof.
rewrite /apply_mapM; move: [] => acc; elim: m acc => //= [[k v] m] IH acc h /=.
rewrite h; last by left.
case: (g k v) => //= w; apply: IH => k' v' hi; apply: h; by right.
Qed.

Lemma nth_error_vec A (xs : list A) (i : 'I_(size xs)) : List.nth_error xs i = Some (vec i).
Proof. by case: xs i => [[]//|a xs] i; rewrite (nth_error_nthE a) // (vecE a). Qed.

Lemma add_map (F : fieldType) I (a b : I -> F) (s : seq I) :
  add_lists [seq a i | i <- s] [seq b i | i <- s] = [seq a i + b i | i <- s].
Proof. by rewrite /add_lists zip_map -map_comp. Qed.

Section Real.
Variable R : realFieldType.
Variable X : Type.
Context {K : Type} {OK : OrdKey K}.
Variable cov : feature X -> feature X -> R.
Variable mu : feature X -> R.
Hypothesis cov_sym : forall x y, cov x y = cov y x.
Variable d : dataset (feature X) R.
Hypothesis wf : wf_dataset d.
Hypothesis alike : measured_alike cov (ds_features d).
Hypothesis mu_alike : forall x, List.In x (ds_features d) -> mu (as_measurement x) = mu x.
Hypothesis positive : pd (observed cov (ds_features d) (DatasetModel.m_var (ds_targets d))).
Local Notation xs := (vec (xs:=ds_features d)).
Local Notation t := (targets_of _ (ds_targets d)).

Lemma observedE : observed cov (ds_features d) (DatasetModel.m_var (ds_targets d)) = kmat cov xs t.
Proof. by apply/matrixP => i j; rewrite !mxE eq_sym; case: eqP => [->|_]; rewrite ?mulr1n ?mulr0n. Qed.

(* one group *)
Lemma one_group k m (f : 'I_k -> 'I_(size (ds_features d))) (g : 'I_m -> 'I_(size (ds_features d))) : complementary f g ->
  [/\ gp_cross_validated cov mu (@held_out_mean R) xs t f = j_mean (refit cov mu (xs \o g) (GpModel.marginal_subset g t) (xs \o f)),
      j_mean (gp_cross_validated cov mu (@held_out_joint R) xs t f) =
        j_mean (refit cov mu (xs \o g) (GpModel.marginal_subset g t) (as_measurement (X:=X) \o (xs \o f)))
    & j_cov (gp_cross_validated cov mu (@held_out_joint R) xs t f) =
        j_cov (refit cov mu (xs \o g) (GpModel.marginal_subset g t) (as_measurement (X:=X) \o (xs \o f))) +
        diag (rowsub f (m_var t))].
Proof.
move=> fg; have [fi [gi [dis _]]] := fg.
have Au : kmat cov xs t \in unitmx by rewrite -observedE; exact: pd_unit.
have Gu : kmat cov (xs \o g) (GpModel.marginal_subset g t) \in unitmx.
  have -> : kmat cov (xs \o g) (GpModel.marginal_subset g t) = mxsub g g (kmat cov xs t).
    rewrite /kmat mxsubD mxsub_diag //; congr (_ + _); by apply/matrixP => i j; rewrite !mxE.
  by apply: pd_unit; apply: pd_mxsub => //; rewrite -observedE.
have al a b : cov (as_measurement (xs (g b))) (as_measurement (xs (f a))) = cov (xs (g b)) (xs (f a)) /\
              cov (xs (g b)) (as_measurement (xs (f a))) = cov (xs (g b)) (xs (f a)).
  apply: (alike (i:=g b) (j:=f a)); [|exact: nth_error_vec|exact: nth_error_vec].
  by move=> /val_inj h; apply: (dis a b).
have hm a : mu (as_measurement (xs (f a))) = mu (xs (f a)).
  by apply: mu_alike; apply: (List.nth_error_In _ (f a)); exact: nth_error_vec.
have hc a b : cov (as_measurement (xs (g b))) (as_measurement (xs (f a))) = cov (xs (g b)) (as_measurement (xs (f a))).
  by have [-> ->] := al a b.
have [E1 E2] := gp_cross_validated_refit mu cov_sym fg Au Gu hc.
split=> //.
by rewrite (gp_cross_validated_means cov_sym fg Au Gu al hm).
Qed.

Lemma map_idE A (l : list A) : [seq x | x <- l] = l.
Proof. exact: map_id. Qed.

Variable indexer : smap K (list nat).
Hypothesis groups : groups_of indexer (size (ds_features d)).

Lemma in_group k l : List.In (k, l) indexer ->
  exists s s' : seq 'I_(size (ds_features d)), [/\ positions (size (ds_features d)) l = Ok s,
    create_fold l d = Ok (Fold (part s') (part s) l) & complementary (at_ (s:=s)) (at_ (s:=s'))].
Proof.
have [wi hg] := groups; move=> hin.
have [hd hr] := hg k l (proj2 (mfind_In _ _ _ wi) hin).
exact: fold_parts.
Qed.

Theorem means_refit : gp_means cov mu d indexer = cv_means (cv_fit cov mu) (cv_predict_mean cov mu) d indexer.
Proof.
apply: apply_mapM_eq => k l /in_group [s [s' [-> -> /one_group [E _ _]]]] /=; congr Ok.
rewrite -[LHS]/(entries (gp_cross_validated cov mu (@held_out_mean R) xs t (at_ (s:=s)))) E.
have := refit_part (B:=list R) cov mu (fun p j => entries (j_mean j)) s s' id.
by rewrite map_id => <-.
Qed.

Theorem marginals_refit : gp_marginals cov mu d indexer =
  apply_mapM indexer (fun _ l => bind (create_fold l d) (fun f =>
    Ok (with_noise (cv_predict_marginal cov mu (cv_fit cov mu (f_train f)) [seq as_measurement x | x <- ds_features (f_test f)])
          (ds_targets (f_test f))))).
Proof.
apply: apply_mapM_eq => k l /in_group [s [s' [-> -> /one_group [_ E E']]]] /=; congr Ok.
rewrite -[LHS]/(Marg (entries (j_mean (gp_cross_validated cov mu (@held_out_joint R) xs t (at_ (s:=s)))))
  (entries (\col_i j_cov (gp_cross_validated cov mu (@held_out_joint R) xs t (at_ (s:=s))) i i))) E E'.
rewrite /with_noise /cv_predict_marginal (proj1 (predict_agree _ _ _ _)) /=; congr Marg.
  by rewrite (refit_part (B:=list R) cov mu (fun p j => entries (j_mean j)) s s' (as_measurement (X:=X))).
rewrite (refit_part (B:=list R) cov mu (fun p j => entries (\col_i j_cov j i i)) s s' (as_measurement (X:=X))).
rewrite /entries.
have -> : [seq nth 0 (DatasetModel.m_var (ds_targets d)) (val i) | i <- s] =
  [seq nth 0 (DatasetModel.m_var (ds_targets d)) (val (at_ (s:=s) i)) | i <- enum 'I_(size s)].
  etransitivity; first exact: (congr1 (map _) (esym (map_tnth_enum (in_tuple s)))).
  by rewrite -map_comp.
rewrite add_map; apply: eq_map => i; rewrite /refit /predict_joint [j_cov _]/=.
set M := (_ - _ : 'M_(size s)); clearbody M.
by rewrite !mxE eqxx mulr1n.
Qed.

Lemma rows_iota n (A : 'M[R]_n) (g : nat -> nat -> R) : (forall i j : 'I_n, A i j = g i j) ->
  rows_of A = [seq [seq g i j | j <- iota 0 n] | i <- iota 0 n].
Proof.
move=> h; rewrite /rows_of -val_enum_ord -[RHS]map_comp.
apply: eq_map => i; rewrite -[RHS]map_comp; apply: eq_map => j; exact: h.
Qed.
Lemma nth_rows n m (A : 'M[R]_(n, m)) (i : 'I_n) (j : 'I_m) : nth 0 (nth [::] (rows_of A) i) j = A i j.
Proof.
by rewrite /rows_of (nth_map i) ?size_enum_ord // (nth_map j) ?size_enum_ord // !nth_ord_enum.
Qed.

Theorem joints_refit : gp_joints cov mu d indexer =
  apply_mapM indexer (fun _ l => bind (create_fold l d) (fun f =>
    Ok (joint_with_noise (cv_predict_joint cov mu (cv_fit cov mu (f_train f)) [seq as_measurement x | x <- ds_features (f_test f)])
          (ds_targets (f_test f))))).
Proof.
apply: apply_mapM_eq => k l /in_group [s [s' [-> -> /one_group [_ E E']]]]; rewrite /bind; congr Ok.
rewrite -[LHS]/(entries (j_mean (gp_cross_validated cov mu (@held_out_joint R) xs t (at_ (s:=s)))),
  rows_of (j_cov (gp_cross_validated cov mu (@held_out_joint R) xs t (at_ (s:=s))))) E E'.
rewrite /joint_with_noise /cv_predict_joint [ds_features (f_test _)]/= [f_train _]/= [ds_targets _]/=.
rewrite -[[seq vec i | i <- s]]/(ds_features (part s)) (refit_part (B:=list R) cov mu (fun p j => entries (j_mean j)) s s' (as_measurement (X:=X))).
rewrite (refit_part (B:=list (list R)) cov mu (fun p j => rows_of (j_cov j)) s s' (as_measurement (X:=X))).
set J := refit _ _ _ _ _; clearbody J; congr pair.
rewrite [DatasetModel.m_var _]/= size_map; apply: rows_iota => i j.
rewrite nth_rows !mxE; congr (_ + _).
rewrite (nth_map (at_ (s:=s) i)) // -(tnth_nth _ (in_tuple s) i) -val_eqE /=.
by case: eqP => [/val_inj ->|_]; rewrite ?mulr1n ?mulr0n.
Qed.
End Real.

Lemma apply_mapM_two K {OK : OrdKey K} V W U (f : K -> V -> outcome W) (h : K -> W -> U) (m : smap K V) out :
  wf_map m -> (forall k v, mfind k m = Some v -> exists w, f k v = Ok w) -> apply_mapM m f = Ok out ->
  apply_mapM m (fun k v => bind (f k v) (fun w => Ok (h k w))) = apply_mapM out (fun k w => Ok (h k w)).
Proof.
move=> wm hf e; have [out' [e' [wo [_ [h1 h2]]]]] := apply_mapM_ok f m wm hf.
move: e'; rewrite e => -[eo]; rewrite -eo in wo h1 h2.
have [r [-> [wr [_ [r1 r2]]]]] := apply_mapM_ok (fun k v => bind (f k v) (fun w => Ok (h k w))) m wm
  (fun k v hv => ltac:(have [w ew] := hf k v hv; exists (h k w); by rewrite ew)).
have [q [-> [wq [_ [q1 q2]]]]] := apply_mapM_ok (fun k w => Ok (h k w)) out wo (fun k w _ => ex_intro _ _ erefl).
congr Ok; apply: map_ext_find => // k.
case er : (mfind k r) => [u|].
  have [v [hv]] := r2 _ _ er; have [w [hw ew]] := h1 _ _ hv; rewrite ew /= => -[<-].
  by have [u' [-> [->]]] := q1 _ _ hw.
case eq : (mfind k q) => [u|] //.
have [w [hw _]] := q2 _ _ eq; have [v [hv _]] := h2 _ _ hw.
by have [u' [+ _]] := r1 _ _ hv; rewrite er.
Qed.

Lemma mat_pure K {OK : OrdKey K} V W (g : K -> V -> W) (m : smap K V) k v : wf_map m -> List.In (k, v) m ->
  mat k (List.map (fun kv => (kv.1, g kv.1 kv.2)) m) = Ok (g k v).
Proof.
move=> wm hin; rewrite /mat (_ : mfind _ _ = Some (g k v)) //.
apply/mfind_In; first by move: wm; rewrite /wf_map /mkeys List.map_map /=.
by apply/List.in_map_iff; exists (k, v).
Qed.

Section Scores.
Variable R : realFieldType.
Variable X : Type.
Context {K : Type} {OK : OrdKey K}.
Variable cov : feature X -> feature X -> R.
Variable mu : feature X -> R.
Hypothesis cov_sym : forall x y, cov x y = cov y x.
Variable d : dataset (feature X) R.
Hypothesis wf : wf_dataset d.
Hypothesis alike : measured_alike cov (ds_features d).
Hypothesis mu_alike : forall x, List.In x (ds_features d) -> mu (as_measurement x) = mu x.
Hypothesis positive : pd (observed cov (ds_features d) (DatasetModel.m_var (ds_targets d))).
Variable indexer : smap K (list nat).
Hypothesis groups : groups_of indexer (size (ds_features d)).

Lemma folds_ok : exists folds, folds_from_group_indexer d indexer = Ok folds /\ wf_map folds /\
  forall U (h : K -> fold (feature X) R -> U),
  apply_mapM indexer (fun k l => bind (create_fold l d) (fun f => Ok (h k f))) = apply_mapM folds (fun k f => Ok (h k f)).
Proof.
have [wi hg] := groups.
have ok : forall k l, mfind k indexer = Some l -> exists f, create_fold l d = Ok f.
  by move=> k l /hg [hd hr]; have [f [e _]] := create_fold_ok l d wf hd hr; exists f.
have [folds [e [wo _]]] := apply_mapM_ok (fun _ l => create_fold l d) indexer wi ok.
exists folds; split=> //; split=> // U h; exact: (apply_mapM_two (f:=fun _ l => create_fold l d) h wi ok e).
Qed.

Theorem scores_refit S (metric : list R -> DatasetModel.marginal R -> S) :
  gp_scores (gp_means cov mu) (@size R) metric d indexer =
  bind (folds_from_group_indexer d indexer) (fold_scores cov mu (cv_predict_mean cov mu) (@size R) metric).
Proof.
have [folds [ef [wo E]]] := folds_ok; rewrite /gp_scores /fold_scores ef [LHS]/= [RHS]/=.
by rewrite (means_refit cov_sym wf alike mu_alike positive groups) /cv_means -E.
Qed.
Theorem marginal_scores_refit S (metric : DatasetModel.marginal R -> DatasetModel.marginal R -> S) :
  let size_of := fun p => size (DatasetModel.m_mean p) in
  gp_scores (gp_marginals cov mu) size_of metric d indexer =
  bind (folds_from_group_indexer d indexer) (fun folds =>
    fold_scores cov mu (fun f xs => cv_predict_marginal cov mu f [seq as_measurement x | x <- xs]) size_of
      (fun p t => metric (with_noise p t) t) folds).
Proof.
have [folds [ef [wo E]]] := folds_ok; rewrite /gp_scores /fold_scores ef [LHS]/= [RHS]/=.
rewrite (marginals_refit cov_sym wf alike mu_alike positive groups) E.
rewrite !(@apply_mapM_pure _ _ _ _ _ _ folds wo (fun k f _ => erefl)) /cross_validated_scores /=.
congr bind; apply: apply_mapM_eq => k f hin.
rewrite (mat_pure (fun k f => with_noise (cv_predict_marginal cov mu (cv_fit cov mu (f_train f)) [seq as_measurement x | x <- ds_features (f_test f)]) (ds_targets (f_test f))) wo hin).
by rewrite (mat_pure (fun k f => cv_predict_marginal cov mu (cv_fit cov mu (f_train f)) [seq as_measurement x | x <- ds_features (f_test f)]) wo hin).
Qed.

End Scores.

(* a covariance function that does not tell measurements apart *)
Section Plain.
Variable F : fieldType.
Variable X : Type.
Variable cov : feature X -> feature X -> F.
Variable mu : feature X -> F.
Hypothesis h1 : forall x y, cov (as_measurement x) (as_measurement y) = cov x y.
Hypothesis h2 : forall x y, cov x (as_measurement y) = cov x y.
Hypothesis h3 : forall x, mu (as_measurement x) = mu x.
Definition marginal_lists p (m : GpModel.marginal F p) := Marg (entries (m_mean m)) (entries (m_var m)).
Lemma plain_cast n (f : gp_fit F X n) p p' (e : p = p') (z : 'I_p -> feature X) (z' : 'I_p' -> feature X) :
  (forall i, z i = as_measurement (z' (cast_ord e i))) ->
  marginal_lists (predict_marginal cov mu f z) = marginal_lists (predict_marginal cov mu f z').
Proof.
case: p' / e z' => z' hz; congr marginal_lists; rewrite /predict_marginal.
have -> : cov_mx cov (train_features f) z = cov_mx cov (train_features f) z'.
  by apply/matrixP => i j; rewrite !mxE hz cast_ord_id h2.
have -> : mean_v mu z = mean_v mu z' by apply/colP => i; rewrite !mxE hz cast_ord_id h3.
by have -> : (\col_i cov (z i) (z i)) = \col_i cov (z' i) (z' i) by apply/colP => i; rewrite !mxE hz cast_ord_id h1.
Qed.
Lemma plain_marginals f ys : cv_predict_marginal cov mu f [seq as_measurement y | y <- ys] = cv_predict_marginal cov mu f ys.
Proof.
have e : size [seq as_measurement y | y <- ys] = size ys by rewrite size_map.
by apply: (plain_cast _ (e:=e)) => i; exact: vec_map.
Qed.
End Plain.

(* predictions of means are made feature by feature *)
Section Pointwise.
Variable F : fieldType.
Variable X : Type.
Variable cov : feature X -> feature X -> F.
Variable mu : feature X -> F.
Definition at_one (f : {n & gp_fit F X n}) (x : feature X) : F := predict_mean cov mu (projT2 f) (fun _ : 'I_1 => x) ord0 ord0.
Lemma pointwise f ys : cv_predict_mean cov mu f ys = List.map (at_one f) ys.
Proof.
rewrite /cv_predict_mean /entries -[List.map _ _]/(map _ _).
apply: eq_trans _ (congr1 (map (at_one f)) (map_tnth_enum (in_tuple ys))); rewrite -map_comp.
by apply: eq_map => i; rewrite /at_one /predict_mean /gp_mean_prediction /= !mxE; congr (_ + _); apply: eq_bigr => j _; rewrite !mxE.
Qed.
Lemma mean_length f ys : length (cv_predict_mean cov mu f ys) = length ys.
Proof. by rewrite pointwise List.map_length. Qed.
End Pointwise.

Lemma partition_groups K {OK : OrdKey K} (indexer : smap K (list nat)) n : indexer_partitions indexer n -> groups_of indexer n.
Proof.
move=> [w [h _]]; split=> // k l hl; have [_ [ss r]] := h k l hl; split=> //.
by elim: ss => [|a l' _ IH hf]; constructor=> // /(proj1 (List.Forall_forall _ _) hf) /Nat.lt_irrefl.
Qed.

Section Grouper.
Variable R : realFieldType.
Variable X : Type.
Context {K : Type} {OK : OrdKey K}.
Variable cov : feature X -> feature X -> R.
Variable mu : feature X -> R.
Hypothesis cov_sym : forall x y, cov x y = cov y x.
Variable d : dataset (feature X) R.
Hypothesis wf : wf_dataset d.
Hypothesis alike : measured_alike cov (ds_features d).
Hypothesis mu_alike : forall x, List.In x (ds_features d) -> mu (as_measurement x) = mu x.
Hypothesis positive : pd (observed cov (ds_features d) (DatasetModel.m_var (ds_targets d))).

Theorem mean_refit indexer : groups_of indexer (size (ds_features d)) ->
  gp_mean cov mu d indexer = cv_mean (cv_fit cov mu) (cv_predict_mean cov mu) d indexer.
Proof. by move=> g; rewrite /gp_mean (means_refit cov_sym wf alike mu_alike positive g). Qed.

Theorem mean_by_group (g : feature X -> K) : Peano.lt 0 (ds_size d) ->
  exists out, gp_mean_grouper cov mu d g = Ok (List.map Some out) /\ length out = ds_size d /\
    forall i x, List.nth_error (ds_features d) i = Some x ->
      exists train, rows train = List.filter (fun r => negb (keqb (g (fst r)) (g x))) (rows d) /\ wf_dataset train /\
        List.nth_error out i = Some (predict_mean cov mu (fit cov mu (vec (xs:=ds_features train)) (targets_of _ (ds_targets train)))
          (fun _ : 'I_1 => x) ord0 ord0).
Proof.
move=> hn.
have [out [e [l h]]] := cv_mean_pointwise (cv_fit cov mu) (cv_predict_mean cov mu) (mean_length cov mu) d g
  (at_one cov mu) (pointwise cov mu) wf hn.
exists out; split.
  rewrite -e /gp_mean_grouper /cv_mean_grouper mean_refit //; apply: partition_groups; exact: build_indexer_partitions.
split=> // i x hx; have [train [h1 [h2 [_ h3]]]] := h i x hx.
by exists train.
Qed.

(* a group that lists an observation twice *)
Theorem duplicate indexer : wf_map indexer ->
  (forall k l, mfind k indexer = Some l -> List.Forall (fun i => Peano.lt i (size (ds_features d))) l) ->
  (exists k l, mfind k indexer = Some l /\ ~ List.NoDup l) ->
  is_ok (gp_means cov mu d indexer) = true /\
  is_ok (cv_means (cv_fit cov mu) (cv_predict_mean cov mu) d indexer) = false.
Proof.
move=> wi hr [k [l [hl hd]]]; split.
  rewrite /gp_means /gp_predictions.
  have ok : forall k l, mfind k indexer = Some l -> exists w,
     bind (positions (size (ds_features d)) l) (fun s => Ok (gp_cross_validated cov mu (T:=fun _ => list R) (@out_mean R)
       (vec (xs:=ds_features d)) (targets_of _ (ds_targets d)) (at_ (s:=s)))) = Ok w.
    move=> k' l' /hr hr'.
    have [s [-> _]] : exists s : seq 'I_(size (ds_features d)), positions _ l' = Ok s /\ map val s = l'.
      by apply: positions_ok => i /(proj1 (List.Forall_forall _ _) hr' i) /ltP.
    by eexists.
  by have [out [-> _]] := apply_mapM_ok _ indexer wi ok.
rewrite /cv_means; apply: apply_mapM_fail; exists (k, l); split; first exact/mfind_In.
by rewrite /= create_fold_bad //; left.
Qed.
End Grouper.
