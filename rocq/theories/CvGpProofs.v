(* Proofs about CvGpModel.v *)
From Verif Require Import Base BaseProofs StdMapModel StdMapProofs StringKeyModel IndexingModel IndexingSpec IndexingProofs
  DatasetModel DatasetSpec DatasetProofs FoldsModel FoldsProofs.
From Coq Require Import Permutation.
From mathcomp Require Import all_ssreflect all_algebra.
From Verif Require Import GpModel GpSpec GpProofs GpProofs2 GpHistory GpProofs3 RansacGpModel RansacGpProofs CvGpModel.
Set Implicit Arguments.
Unset Strict Implicit.
Unset Printing Implicit Defensive.
Import GRing.Theory.
Local Open Scope ring_scope.

Lemma mapM_pure A B (f : A -> outcome B) (g : A -> B) l :
  (forall a, List.In a l -> f a = Ok (g a)) -> mapM f l = Ok [seq g a | a <- l].
Proof.
elim: l => //= a l IH h; rewrite (h a (or_introl (erefl _))) /= IH // => b hb.
by apply: h; right.
Qed.
Lemma nth_error_nthE A (x0 : A) (l : list A) i : (i < size l)%N -> List.nth_error l i = Some (nth x0 l i).
Proof. by elim: l i => [|a l IH] [|i] //=; exact: IH. Qed.
Lemma vecE A (x0 : A) (l : list A) (i : 'I_(size l)) : vec i = nth x0 l i.
Proof. by rewrite /vec (tnth_nth x0). Qed.

Lemma subset_nth A (x0 : A) (v : list A) n (s : seq 'I_n) : size v = n ->
  IndexingModel.subset v (map val s) = Ok [seq nth x0 v (val i) | i <- s].
Proof.
move=> e; rewrite /IndexingModel.subset -[RHS]/(Ok [seq (fun i : 'I_n => nth x0 v (val i)) i | i <- s]).
rewrite (_ : mapM _ _ = mapM (fun i : 'I_n => checked_get v (val i)) s); last first.
  by elim: s => //= i s ->.
by apply: mapM_pure => i _; rewrite /checked_get (nth_error_nthE x0) //= e.
Qed.
Lemma subset_vec A (v : list A) (s : seq 'I_(size v)) : IndexingModel.subset v (map val s) = Ok [seq vec i | i <- s].
Proof.
case: v s => [|a v] s; first by case: s => [|[]].
by rewrite (@subset_nth _ a _ (size (a :: v))) //; congr Ok; apply: eq_map => i; rewrite (vecE a).
Qed.

Lemma at_inj n (s : seq 'I_n) : uniq s -> injective (at_ (s:=s)).
Proof. by move=> u; have /tuple_uniqP := (u : uniq (in_tuple s)). Qed.
Lemma at_in n (s : seq 'I_n) a : at_ (s:=s) a \in s.
Proof. exact: mem_tnth. Qed.
Lemma at_onto n (s : seq 'I_n) i : i \in s -> exists a, at_ (s:=s) a = i.
Proof. by move=> /(@tnthP _ _ (in_tuple s)) [a ->]; exists a. Qed.
Lemma in_InP (l : list nat) i : reflect (List.In i l) (i \in l).
Proof.
elim: l => [|a l IH] /=; first by constructor.
rewrite in_cons; apply: (iffP orP) => [[/eqP ->|/IH ?]|[->|/IH ?]]; auto.
Qed.
Lemma NoDup_uniq (l : list nat) : List.NoDup l -> uniq l.
Proof. by elim=> //= a l' h _ ->; rewrite andbT; apply/in_InP. Qed.

(* the positions of a group and of the rest of the data *)
Lemma group_and_rest n (l : list nat) : List.NoDup l -> List.Forall (fun i => Peano.lt i n) l ->
  exists s s' : seq 'I_n, [/\ positions n l = Ok s, map val s = l, map val s' = indices_complement l n
    & complementary (at_ (s:=s)) (at_ (s:=s'))].
Proof.
move=> hd hr.
have [s [e E]] : exists s : seq 'I_n, positions n l = Ok s /\ map val s = l.
  by apply: positions_ok => i /(proj1 (List.Forall_forall _ _) hr i) /ltP.
have [s' [e' E']] : exists s : seq 'I_n, positions n (indices_complement l n) = Ok s /\ map val s = indices_complement l n.
  by apply: positions_ok => i /(proj1 (proj2 (indices_complement_spec l n) i)) [/ltP].
exists s, s'; split=> //.
have us : uniq s by rewrite -(map_inj_uniq val_inj) E; exact: NoDup_uniq.
have us' : uniq s'.
  rewrite -(map_inj_uniq val_inj) E'; apply: NoDup_uniq.
  have P := indices_complement_permutation l n hd hr.
  by have /NoDup_app_r := Permutation_NoDup (Permutation_sym P) (List.seq_NoDup n 0).
have mem i : (i \in s) = (val i \in l) by rewrite -E mem_map //; exact: val_inj.
have mem' i : (i \in s') = (val i \in indices_complement l n) by rewrite -E' mem_map //; exact: val_inj.
split; first exact: at_inj.
split; first exact: at_inj.
split.
  move=> a b h; have := at_in b; rewrite -h mem' => /in_InP /(proj1 (proj2 (indices_complement_spec l n) _)) [_]; apply.
  by apply/in_InP; rewrite -mem; exact: at_in.
move=> i; case hi : (i \in s); [left|right]; first exact: at_onto.
apply: at_onto; rewrite mem'; apply/in_InP/(proj2 (proj2 (indices_complement_spec l n) _)); split; first by apply/ltP; case: (i).
by move/in_InP; rewrite -mem hi.
Qed.

Section Data.
Variable F : fieldType.
Variable X : Type.
Implicit Types d : dataset (feature X) F.

(* the observations at given positions *)
Definition part d (s : seq 'I_(size (ds_features d))) : dataset (feature X) F :=
  DS [seq vec i | i <- s]
     (Marg [seq nth 0 (DatasetModel.m_mean (ds_targets d)) (val i) | i <- s]
           [seq nth 0 (DatasetModel.m_var (ds_targets d)) (val i) | i <- s]) [].

Lemma fold_parts d (l : list nat) : wf_dataset d -> List.NoDup l ->
  List.Forall (fun i => Peano.lt i (size (ds_features d))) l ->
  exists s s' : seq 'I_(size (ds_features d)), [/\ positions (size (ds_features d)) l = Ok s,
    create_fold l d = Ok (Fold (part s') (part s) l) & complementary (at_ (s:=s)) (at_ (s:=s'))].
Proof.
move=> wd hd hr; have [s [s' [e E E' c]]] := group_and_rest hd hr.
exists s, s'; split=> //.
have [hm hf] := wd.
have sm : size (DatasetModel.m_mean (ds_targets d)) = size (ds_features d) by [].
have sv : size (DatasetModel.m_var (ds_targets d)) = size (ds_features d) by rewrite -sm; symmetry.
have P (q : seq 'I_(size (ds_features d))) : dataset_subset d (map val q) = Ok (part q).
  rewrite /dataset_subset subset_vec /= /DatasetModel.marginal_subset !(subset_nth 0) //=.
  rewrite /marginal_make /= -![length _]/(size _) !size_map Nat.eqb_refl /=.
  by rewrite /dataset_make /marginal_size /= -![length _]/(size _) !size_map Nat.eqb_refl /= Nat.eqb_refl.
rewrite create_fold_split // /ds_size -[length _]/(size (ds_features d)) -E' P /= (_ : dataset_subset d l = Ok (part s)) /=; last by rewrite -E; exact: P.
rewrite -![length _]/(size _) !size_map.
have -> : (size s + size s')%coq_nat = size (ds_features d).
  have := Permutation_length (indices_complement_permutation l _ hd hr).
  by rewrite List.app_length List.seq_length -E' -![length _]/(size _) size_map (_ : size l = size s) // -E size_map.
by rewrite Nat.eqb_refl.
Qed.
End Data.

Section Same.
Variable F : fieldType.
Variable X : Type.
Variable cov : feature X -> feature X -> F.
Variable mu : feature X -> F.

Lemma cov_mx_eq n p (x x' : 'I_n -> feature X) (z z' : 'I_p -> feature X) :
  x =1 x' -> z =1 z' -> cov_mx cov x z = cov_mx cov x' z'.
Proof. by move=> h h'; apply/matrixP => i j; rewrite !mxE h h'. Qed.
Lemma mean_v_eq n (x x' : 'I_n -> feature X) : x =1 x' -> mean_v mu x = mean_v mu x'.
Proof. by move=> h; apply/colP => i; rewrite !mxE h. Qed.

(* the joint prediction at z of the fit to x with targets t *)
Definition refit n p (x : 'I_n -> feature X) (t : GpModel.marginal F n) (z : 'I_p -> feature X) : GpModel.joint F p :=
  predict_joint cov mu (fit cov mu x t) z.
Lemma refit_eq n p (x x' : 'I_n -> feature X) t (z z' : 'I_p -> feature X) :
  x =1 x' -> z =1 z' -> refit x t z = refit x' t z'.
Proof.
move=> hx hz; have hm : as_measurement (X:=X) \o x =1 as_measurement (X:=X) \o x' by move=> i /=; rewrite hx.
rewrite /refit /predict_joint /fit /make_fit /=.
by rewrite (cov_mx_eq hm hm) (mean_v_eq hm) (cov_mx_eq hx hz) (cov_mx_eq hz hz) (mean_v_eq hz).
Qed.

(* lists of the same size *)
Section AnyView.
Variable B : Type.
Variable joint_lists : forall p, GpModel.joint F p -> B.
Lemma refit_cast n n' p p' (en : n = n') (ep : p = p') (x : 'I_n -> feature X) x' t t' (z : 'I_p -> feature X) z' :
  (forall i, x i = x' (cast_ord en i)) -> (forall i, z i = z' (cast_ord ep i)) ->
  (forall i, m_mean t i 0 = m_mean t' (cast_ord en i) 0) -> (forall i, m_var t i 0 = m_var t' (cast_ord en i) 0) ->
  joint_lists (refit x t z) = joint_lists (refit x' t' z').
Proof.
case: n' / en x' t' => x' t'; case: p' / ep z' => z' hx hz ht hv.
have -> : t = t'.
  case: t t' ht hv => a b [a' b'] /= ha hb; congr Marginal; apply/colP => i; [rewrite ha|rewrite hb]; by rewrite cast_ord_id.
congr joint_lists; apply: refit_eq => i; [rewrite hx|rewrite hz]; by rewrite cast_ord_id.
Qed.

Lemma vec_map A C (f : A -> C) (s : list A) (e : size (map f s) = size s) i :
  vec (xs:=map f s) i = f (vec (xs:=s) (cast_ord e i)).
Proof.
case: s e i => [|a s] e i; first by case: i.
by rewrite (vecE (f a)) (vecE a) /= -[f a :: map f s]/(map f (a :: s)) (nth_map a) //= -(size_map f) ltn_ord.
Qed.

(* predicting by a fit of part of the data *)
Lemma refit_part (d : dataset (feature X) F) (s s' : seq 'I_(size (ds_features d))) (g : feature X -> feature X) :
  joint_lists (predict_joint cov mu (projT2 (cv_fit cov mu (part s'))) (vec (xs:=[seq g x | x <- ds_features (part s)]))) =
  joint_lists (refit (vec (xs:=ds_features d) \o at_ (s:=s')) (GpModel.marginal_subset (at_ (s:=s')) (targets_of _ (ds_targets d)))
    (g \o (vec (xs:=ds_features d) \o at_ (s:=s)))).
Proof.
have e : size [seq vec (xs:=ds_features d) i | i <- s'] = size s' by rewrite size_map.
have e' : size [seq g x | x <- [seq vec (xs:=ds_features d) i | i <- s]] = size s by rewrite !size_map.
apply: (refit_cast (en:=e) (ep:=e')) => i.
- exact: vec_map.
- have e1 : size [seq g x | x <- [seq vec (xs:=ds_features d) i | i <- s]] = size [seq vec (xs:=ds_features d) i | i <- s] by rewrite size_map.
  have e2 : size [seq vec (xs:=ds_features d) i | i <- s] = size s by rewrite size_map.
  rewrite (vec_map e1) (vec_map e2) /=; congr (g (vec _)); congr tnth; exact: val_inj.
all: have i0 : 'I_(size s') := cast_ord e i.
all: by rewrite !mxE (nth_map (at_ (s:=s') i0)) -?(tnth_nth _ (in_tuple s') (cast_ord e i)) //= -(size_map (vec (xs:=ds_features d))) ltn_ord.
Qed.
End AnyView.
End Same.
