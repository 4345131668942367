From Verif Require Import Base BaseProofs StdMapModel StdMapProofs IndexingModel IndexingProofs DoubleModel RandomModel RansacModel RansacSpec RansacProofs.
From mathcomp Require Import all_ssreflect all_algebra.
From Verif Require Import GpModel GpSpec GpProofs3 RansacGpModel RansacGpSpec.
Set Implicit Arguments.
Unset Strict Implicit.
Unset Printing Implicit Defensive.
Import GRing.Theory.
Local Open Scope ring_scope.

Section Groups.
Context {K : Type} {OK : OrdKey K}.
Variable n : nat.
Variable indexer : smap K (list nat).
Variable groups : list K.
Hypothesis indexed : forall k, List.In k groups -> exists l, mfind k indexer = Some l /\ forall i, List.In i l -> (i < n)%N.

Lemma incl_cons (k : K) ks : List.incl (k :: ks) groups -> List.In k groups /\ List.incl ks groups.
Proof. by move=> h; split; [apply: h; left|move=> x hx; apply: h; right]. Qed.
Lemma indices_listed ks : List.incl ks groups -> indices_from_groups indexer ks = Ok (listed indexer ks).
Proof.
elim: ks => //= k ks IH /incl_cons [/indexed [l [e _]] /IH h].
by rewrite /mat e /= h.
Qed.
Lemma listed_bound ks : List.incl ks groups -> forall i, List.In i (listed indexer ks) -> (i < n)%N.
Proof.
elim: ks => //= k ks IH /incl_cons [/indexed [l [e b]] /IH h] i; rewrite e.
by move=> hi; case: (List.in_app_or _ _ _ hi); [exact: b|exact: h].
Qed.
Lemma observations_listed ks : observations indexer ks = size (listed indexer ks).
Proof.
elim: ks => //= k ks ->; rewrite -[size (_ ++ _)%list]/(length (_ ++ _)%list) List.app_length.
by case: (mfind k indexer).
Qed.
Lemma positions_ok (l : list nat) : (forall i, List.In i l -> (i < n)%N) ->
  exists s : seq 'I_n, positions n l = Ok s /\ map val s = l.
Proof.
elim: l => [|i l IH] h; first by exists [::].
have [s [e E]] := IH (fun j hj => h j (or_intror hj)).
have hi : (i < n)%N by apply: h; left.
exists (Ordinal hi :: s); rewrite /positions /= insubT /=; rewrite /positions in e; rewrite e /=.
by rewrite E.
Qed.
Lemma at_enumerates (s : seq 'I_n) : enumerates (at_ (s:=s)) (map val s).
Proof. by rewrite /enumerates map_comp map_tnth_enum. Qed.
Lemma group_positions_ok ks : List.incl ks groups ->
  exists s : seq 'I_n, group_positions n indexer ks = Ok s /\ enumerates (at_ (s:=s)) (listed indexer ks) /\
    size s = observations indexer ks.
Proof.
move=> h; rewrite /group_positions indices_listed //=.
have [s [-> e]] := positions_ok (listed_bound h); exists s; split=> //.
by rewrite observations_listed -e size_map; split=> //; exact: at_enumerates.
Qed.
End Groups.

Section Best.
Context {K : Type} {OK : OrdKey K}.
(* the best iteration has a metric no larger than any that has one *)
Lemma best_least F' fitter im cm iv groups thr sz minc (best : iteration K) its :
  @is_best K OK F' fitter im cm iv groups thr sz minc best its ->
  forall it a b, List.In it its -> it_metric it = Some a -> it_metric best = Some b -> Z.le b a.
Proof.
move=> [_ [_ [l1 [l2 [-> [h1 h2]]]]]] it a b hin ea eb.
case: (List.in_app_or _ _ _ hin) => [/h1 /(_ ea) [c [ec hc]]|[E|/h2 /(_ ea) [c [ec hc]]]].
- by move: ec; rewrite eb => -[->]; apply: Z.lt_le_incl.
- by subst it; move: ea; rewrite eb => -[->]; exact: Z.le_refl.
- by move: ec; rewrite eb => -[->].
Qed.
Lemma consensus_incl F' fitter im cm iv groups thr sz minc (it : iteration K) :
  @evaluated K OK F' fitter im cm iv groups thr sz minc it -> List.incl (consensus it) groups.
Proof.
move=> e k hk; have [h _] := evaluated_partition _ _ _ _ _ _ _ _ _ k e.
apply/h; case: (List.in_app_or _ _ _ hk) => [?|hi]; [by left|right; left].
by case: e => [_ [_ [[w _] _]]]; apply/(mcontains_spec _ _ w).
Qed.
End Best.
