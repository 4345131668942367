(* C78: RANSAC with a Gaussian process. *)
From Verif Require Import Base BaseProofs StdMapModel StdMapProofs IndexingModel DoubleModel RandomModel RandomProps RansacModel RansacSpec RansacProofs RansacProps.
From Coq Require Import Lia.
From mathcomp Require Import all_ssreflect all_algebra.
From Verif Require Import GpModel GpSpec GpProofs3 RansacGpModel RansacGpSpec RansacGpProofs.
Set Implicit Arguments.
Unset Strict Implicit.
Unset Printing Implicit Defensive.
Import GRing.Theory.
Local Open Scope ring_scope.

Section Theorems.
Variable F : fieldType.
Context {K : Type} {OK : OrdKey K}.
Variable n : nat.
Variable prior : joint F n.
Variable truth : marginal F n.
Variable indexer : smap K (list nat).
Variable groups : list K.
(* every group has positions in the data set *)
Hypothesis indexed : forall k, List.In k groups -> exists l, mfind k indexer = Some l /\ forall i, List.In i l -> (i < n)%N.
Variables (imetric cmetric : forall k, joint F k -> marginal F k -> dbl)
  (vmetric : forall k, joint F k -> marginal F k -> bool).

Lemma truth_same : Marginal (conform_mx 0 (m_mean truth)) (conform_mx 0 (m_var truth)) = truth.
Proof. by rewrite !conform_mx_id; case: truth. Qed.
Lemma functions_of : get_gp_ransac_functions prior truth indexer imetric cmetric vmetric =
  Ok (GpFunctions (gp_ransac_fitter n indexer) (gp_ransac_inlier_metric prior truth indexer imetric)
     (gp_ransac_metric prior truth indexer cmetric) (gp_ransac_metric prior truth indexer vmetric)).
Proof. by rewrite /get_gp_ransac_functions eqxx /= truth_same. Qed.

(* The functions never fail on groups of the data set. The fit of some groups is made of their observations; the
   metrics of some groups see the prior and the truth of these; the inlier metric of a group sees its law given the
   observations of the fit. *)
Theorem C78_functions : exists fns,
  get_gp_ransac_functions prior truth indexer imetric cmetric vmetric = Ok fns /\
  forall ks, List.incl ks groups ->
  exists p (f : 'I_p -> 'I_n) s, enumerates f (listed indexer ks) /\ g_fitter fns ks = Ok s /\
    g_consensus fns ks = Ok (cmetric (joint_subset f prior) (marginal_subset f truth)) /\
    g_valid fns ks = Ok (vmetric (joint_subset f prior) (marginal_subset f truth)) /\
    forall k, List.In k groups -> exists q (h : 'I_q -> 'I_n) law,
      enumerates h (listed indexer (k :: nil)) /\
      g_inlier fns k s = Ok (imetric law (marginal_subset h truth)) /\
      (symmetric (j_cov prior) -> mxsub f f (j_cov prior) + diag_mx (rowsub f (m_var truth))^T \in unitmx ->
       law_given prior truth f h law).
Proof.
eexists; split; first exact: functions_of.
move=> ks hks; have [s [es [en _]]] := group_positions_ok indexed hks.
exists (size s), (at_ (s:=s)), s; split=> //=; split; first by rewrite /gp_ransac_fitter es.
split; first by rewrite /gp_ransac_metric es.
split; first by rewrite /gp_ransac_metric es.
move=> k hk; have [l [el bl]] := indexed hk; have [t [et vt]] := positions_ok bl.
exists (size t), (at_ (s:=t)), (conditional_joint prior truth (at_ (s:=s)) (at_ (s:=t))).
split; first by rewrite /listed /= el List.app_nil_r -vt; exact: at_enumerates.
split; first by rewrite /gp_ransac_inlier_metric /mat el /= et.
move=> sy u; exact: conditional_gaussian_correct.
Qed.
Print Assumptions C78_functions.

(* so that there are callbacks for RANSAC *)
Theorem C78_callbacks : exists fns fitter inlier consensus valid,
  get_gp_ransac_functions prior truth indexer imetric cmetric vmetric = Ok fns /\
  implements groups fns fitter inlier consensus valid.
Proof.
have P ks : List.incl ks groups -> exists s, group_positions n indexer ks = Ok s.
  by move=> /(group_positions_ok indexed) [s [e _]]; exists s.
have [fns [e _]] := C78_functions; exists fns.
exists (fun ks => if g_fitter fns ks is Ok s then s else [::]).
exists (fun k f => if g_inlier fns k f is Ok d then d else NaN).
exists (fun ks => if g_consensus fns ks is Ok d then d else NaN).
exists (fun ks => if g_valid fns ks is Ok d then d else false).
split=> //; move: e; rewrite functions_of => -[<-]; split; [|split; [|split]] => /=.
- by move=> ks /P [s e]; rewrite /gp_ransac_fitter e.
- move=> k f /indexed [l [el bl]]; have [t [et _]] := positions_ok bl.
  by rewrite /gp_ransac_inlier_metric /mat el /= et.
- by move=> ks /P [s e]; rewrite /gp_ransac_metric e.
- by move=> ks /P [s e]; rewrite /gp_ransac_metric e.
Qed.
Print Assumptions C78_callbacks.
End Theorems.

(* Sizes that differ are refused. *)
Theorem C78_sizes (F : fieldType) {K} {OK : OrdKey K} n m (prior : joint F n) (truth : marginal F m) (indexer : smap K (list nat))
    imetric cmetric vmetric :
  n <> m -> get_gp_ransac_functions prior truth indexer imetric cmetric vmetric = Abort.
Proof. by rewrite /get_gp_ransac_functions => /eqP /negbTE ->. Qed.
Print Assumptions C78_sizes.
(* A group with a position outside the data set is refused by every function. *)
Theorem C78_outside (F : fieldType) {K} {OK : OrdKey K} n (prior : joint F n) (truth : marginal F n) (indexer : smap K (list nat))
    imetric cmetric vmetric fns k l i :
  get_gp_ransac_functions prior truth indexer imetric cmetric vmetric = Ok fns ->
  mfind k indexer = Some l -> List.In i l -> (n <= i)%N ->
  g_fitter fns (k :: nil) = Abort /\ g_consensus fns (k :: nil) = Abort /\ g_valid fns (k :: nil) = Abort /\
  forall s, g_inlier fns k s = Abort.
Proof.
move=> + e hi hn; have P : positions n l = Abort.
  elim: l hi {e} => //= j l IH [->|/IH h]; first by rewrite /positions /= insubN // -leqNgt.
  by rewrite /positions /= in h *; rewrite h; case: insub.
have E : group_positions n indexer (k :: nil) = Abort.
  by rewrite /group_positions /indices_from_groups /= /mat e /= List.app_nil_r.
rewrite /get_gp_ransac_functions eqxx /= => -[<-] /=.
rewrite /gp_ransac_fitter /gp_ransac_metric /gp_ransac_inlier_metric /mat e /= P E; by split.
Qed.
Print Assumptions C78_outside.

(* The default strategy, run by RANSAC with any random engine: no candidate is turned down, the consensus set that is
   chosen has at least as many observations as that of any iteration that reached a consensus, and a group that is
   not a candidate is in it exactly when the metric of its law given the candidates is within the threshold. *)
Theorem C78_default (F : fieldType) {K} {OK : OrdKey K} {G} n (prior : joint F n) (truth : marginal F n)
    (indexer : smap K (list nat)) groups imetric fns fitter im cm iv (uniform : Z -> Z -> G -> Z * G)
    dfuel thr sz minc maxi maxf g out :
  (forall k, List.In k groups -> exists l, mfind k indexer = Some l /\ forall i, List.In i l -> (i < n)%N) ->
  get_gp_ransac_functions prior truth indexer imetric (@feature_count F) (@always_accept F) = Ok fns ->
  implements groups fns fitter im cm iv ->
  in_range_engine uniform -> Z.lt (Z.of_nat (length groups)) (Z.pow 2 64) ->
  ransac fitter im cm iv uniform dfuel groups thr sz minc maxi maxf g = Some (Ok out) ->
  ro_code out = RANSAC_SUCCESS ->
  (forall it, List.In it (ro_iterations out) -> it_metric it <> NaN ->
     (observations indexer (consensus it) <= observations indexer (consensus (ro_best out)))%N) /\
  (forall it, List.In it (ro_iterations out) ->
     evaluated fitter im cm iv groups thr sz minc it) /\
  exists p (f : 'I_p -> 'I_n), enumerates f (listed indexer (it_candidates (ro_best out))) /\
  (symmetric (j_cov prior) -> mxsub f f (j_cov prior) + diag_mx (rowsub f (m_var truth))^T \in unitmx ->
   forall k, List.In k groups -> ~ List.In k (it_candidates (ro_best out)) ->
   exists q (h : 'I_q -> 'I_n) law, enumerates h (listed indexer (k :: nil)) /\ law_given prior truth f h law /\
     (List.In k (consensus (ro_best out)) <-> dleb (imetric _ law (marginal_subset h truth)) thr = true)).
Proof.
move=> indexed efns impl hu hs er ec.
have [hbest [failed [hit _]]] := C21_success _ _ _ _ _ _ _ _ _ _ _ _ _ _ hu hs er ec.
have [hev [hen _]] := hbest.
have [h1 [h2 [h3 h4]]] := impl.
have evald it : List.In it (ro_iterations out) -> evaluated fitter im cm iv groups thr sz minc it.
  move=> hin; case: hit => ev [rj [perm [Fev [Frj _]]]].
  have := Permutation.Permutation_in _ perm hin => /(List.in_app_or _ _ _) [|].
    by move/List.Forall_forall: Fev; apply.
  move=> hr; have [[inds [S1 [S2 S3]]] [hv _]] : rejected iv groups sz it by move/List.Forall_forall: Frj; apply.
  have hc : List.incl (it_candidates it) groups.
    move=> k /(@List.In_nth_error _ _ _) [i ei].
    have [L P] := proj1 (IndexingProofs.subset_ok_iff _ _ _) S3.
    case ej : (List.nth_error inds i) => [j|].
      by have [_ E] := P i j ej; apply: (@List.nth_error_In _ _ j); rewrite -E.
    have := proj1 (List.nth_error_None _ _) ej; rewrite -L => le.
    by have := proj2 (List.nth_error_None _ _) le; rewrite ei.
  have := h4 _ hc; move: efns; rewrite functions_of => -[<-] /=; rewrite /gp_ransac_metric.
  by have [s [-> _]] := group_positions_ok indexed hc => /=; rewrite /always_accept hv.
have count it : List.In it (ro_iterations out) \/ it = ro_best out -> it_metric it <> NaN ->
    it_metric it = Some (Z.opp (Z.of_nat (observations indexer (consensus it)))).
  move=> hin hn.
  have hevi : evaluated fitter im cm iv groups thr sz minc it by case: hin => [/evald|->].
  have [_ [_ [_ [ha hb]]]] := hevi.
  have hc := consensus_incl hevi.
  have e1 : it_metric it = cm (consensus it).
    case: (Compare_dec.le_dec minc (length (consensus it))) => [/ha|/hb] //.
  rewrite e1; have := h3 _ hc; move: efns; rewrite functions_of => -[<-] /=; rewrite /gp_ransac_metric.
  by have [s [-> [_ <-]]] := group_positions_ok indexed hc => /= -[<-].
split.
  move=> it hin hn.
  have eb : it_metric (ro_best out) = Some (Z.opp (Z.of_nat (observations indexer (consensus (ro_best out))))).
    apply: count; first by right.
    have [_ [_ [_ [ha _]]]] := hev; rewrite (ha hen) => e.
    have := h3 _ (consensus_incl hev); rewrite e; move: efns; rewrite functions_of => -[<-] /=; rewrite /gp_ransac_metric.
    by have [s [-> _]] := group_positions_ok indexed (consensus_incl hev).
  have := best_least hbest hin (count it (or_introl hin) hn) eb => h.
  apply/leP; lia.
split=> //.
have hc : List.incl (it_candidates (ro_best out)) groups.
  by move=> k hk; apply: (consensus_incl hev); apply/List.in_or_app; left.
have [fns' [e' all]] := @C78_functions F K OK n prior truth indexer groups indexed imetric (@feature_count F) (@always_accept F).
have ef : fns' = fns by move: e'; rewrite efns => -[].
subst fns'; have [p [f [s [en [es [_ [_ hk]]]]]]] := all _ hc.
exists p, f; split=> // sy u k kin knot.
have [q [h [law [enh [ei hlaw]]]]] := hk k kin.
exists q, h, law; split=> //; split; first exact: hlaw.
have eim : im k (fitter (it_candidates (ro_best out))) = imetric q law (marginal_subset h truth).
  have := h2 k s kin; rewrite ei => -[->]; congr (im k _).
  by have := h1 _ hc; rewrite es => -[].
have [_ [_ [[w1 [w2 [c1 c2]]] _]]] := hev; rewrite -eim; split.
  move=> hin; case: (List.in_app_or _ _ _ hin) => // /(proj1 (mfind_Some_key _ _ w1)) [v ev].
  by have [_ [_ [<- ->]]] := proj1 (c1 k v) ev.
move=> hd; apply: List.in_or_app; right; apply/(mfind_Some_key _ _ w1); eexists.
by apply/c1; do !split.
Qed.
Print Assumptions C78_default.

(* A candidate with a chi squared probability above the threshold, or NaN, is turned down. *)
Theorem C78_chi_squared (F : fieldType) (cdf : forall k, joint F k -> marginal F k -> dbl) threshold k (pred : joint F k) (truth : marginal F k) :
  chi_squared_is_valid cdf threshold pred truth = true <->
  exists c t, cdf k pred truth = Some c /\ threshold = Some t /\ Z.le c t.
Proof.
rewrite /chi_squared_is_valid /dleb; case: (cdf k pred truth) => [c|]; case: threshold => [t|]; split=> //=.
- by move=> /Z.leb_le h; exists c, t.
- by move=> [? [? [[->] [[->] /Z.leb_le]]]].
- by move=> [? [? [_ []]]].
- by move=> [? [? []]].
- by move=> [? [? []]].
Qed.
Print Assumptions C78_chi_squared.

(* a case: three observations, each its own group, and a run that succeeds *)
Definition ex_indexer : smap nat (list nat) := [:: (0%N, [:: 0%N]); (1%N, [:: 1%N]); (2%N, [:: 2%N])].
Definition ex_prior : joint [fieldType of rat] 3 := Joint 0 1.
Definition ex_truth : marginal [fieldType of rat] 3 := Marginal 0 0.
Definition ex_metric k (j : joint [fieldType of rat] k) (t : marginal [fieldType of rat] k) : dbl := Some Z0.
Definition ex_fitter (ks : list nat) : seq 'I_3 := if group_positions 3 ex_indexer ks is Ok s then s else [::].
Definition ex_consensus (ks : list nat) : dbl := Some (Z.opp (Z.of_nat (observations ex_indexer ks))).
Lemma ex_indexed k : List.In k [:: 0; 1; 2]%N ->
  exists l, mfind k ex_indexer = Some l /\ forall i, List.In i l -> (i < 3)%N.
Proof. by move=> [<-|[<-|[<-|[]]]]; eexists; split; try reflexivity; move=> i [<-|[]]. Qed.
Example C78_meets : exists fns out,
  get_gp_ransac_functions ex_prior ex_truth ex_indexer ex_metric (@feature_count _) (@always_accept _) = Ok fns /\
  implements [:: 0; 1; 2]%N fns ex_fitter (fun _ _ => Some Z0) ex_consensus (fun _ => true) /\
  ransac ex_fitter (fun _ _ => Some Z0) ex_consensus (fun _ => true) (fun lo hi (g : unit) => (lo, g)) 5 [:: 0; 1; 2]%N
    (Some (Zpos xH)) 1 1 2 1 tt = Some (Ok out) /\ ro_code out = RANSAC_SUCCESS /\
  observations ex_indexer (consensus (ro_best out)) = 3%N /\
  symmetric (j_cov ex_prior) /\ forall k (f : 'I_k -> 'I_3), injective f ->
    mxsub f f (j_cov ex_prior) + diag_mx (rowsub f (m_var ex_truth))^T \in unitmx.
Proof.
do 2 eexists; split; first exact: functions_of.
split.
  split; [|split; [|split]] => /=.
  - by move=> ks /(group_positions_ok ex_indexed) [s [e _]]; rewrite /ex_fitter /gp_ransac_fitter e.
  - move=> k f /ex_indexed [l [el bl]]; have [t [et _]] := positions_ok bl.
    by rewrite /gp_ransac_inlier_metric /mat el /= et.
  - by move=> ks /(group_positions_ok ex_indexed) [s [e [_ es]]]; rewrite /gp_ransac_metric e /= /feature_count es.
  - by move=> ks /(group_positions_ok ex_indexed) [s [e _]]; rewrite /gp_ransac_metric e.
split; first reflexivity.
split; first reflexivity.
split; first reflexivity.
split; first by rewrite /symmetric trmx1.
move=> k f fi; have -> : mxsub f f (1%:M : 'M[rat]_3) + diag_mx (rowsub f (0 : 'cV[rat]_3))^T = 1%:M.
  by apply/matrixP => i j; rewrite !mxE (inj_eq fi) mul0rn addr0.
exact: unitmx1.
Qed.
