(* Vocabulary for C78. *)
From Verif Require Import Base StdMapModel DoubleModel RansacModel.
From mathcomp Require Import all_ssreflect all_algebra.
From Verif Require Import GpModel GpSpec RansacGpModel.
Set Implicit Arguments.
Unset Strict Implicit.
Unset Printing Implicit Defensive.
Import GRing.Theory.
Local Open Scope ring_scope.

(* the number of observations in some groups *)
Fixpoint observations {K} {OK : OrdKey K} (indexer : smap K (list nat)) (ks : list K) : nat :=
  match ks with
  | nil => 0
  | k :: ks => (match mfind k indexer with Some l => length l | None => 0 end + observations indexer ks)%coq_nat
  end.

(* the numbers of the observations of some groups, in order *)
Definition listed {K} {OK : OrdKey K} (indexer : smap K (list nat)) (ks : list K) : list nat :=
  List.flat_map (fun k => match mfind k indexer with Some l => l | None => nil end) ks.

(* f enumerates the positions in l *)
Definition enumerates n k (f : 'I_k -> 'I_n) (l : list nat) : Prop := [seq val (f i) | i <- enum 'I_k] = l.

(* callbacks that return what the functions of the strategy return, for the groups there are *)
Definition implements {K n} (groups : list K) (fns : @gp_functions K n)
    (fitter : list K -> seq 'I_n) (inlier : K -> seq 'I_n -> dbl) (consensus : list K -> dbl) (valid : list K -> bool) : Prop :=
  (forall ks, List.incl ks groups -> g_fitter fns ks = Ok (fitter ks)) /\
  (forall k f, List.In k groups -> g_inlier fns k f = Ok (inlier k f)) /\
  (forall ks, List.incl ks groups -> g_consensus fns ks = Ok (consensus ks)) /\
  (forall ks, List.incl ks groups -> g_valid fns ks = Ok (valid ks)).

(* the law of the observations numbered by f given those numbered by g, when the truth is observed with its
   variances *)
Definition law_given (F : fieldType) n k p (prior : joint F n) (truth : marginal F n) (g : 'I_k -> 'I_n)
    (f : 'I_p -> 'I_n) (law : joint F p) : Prop :=
  let Sgg := mxsub g g (j_cov prior) + diag_mx (rowsub g (m_var truth))^T in
  conditional (rowsub f (j_mean prior)) (rowsub g (j_mean prior)) (mxsub f f (j_cov prior)) (mxsub f g (j_cov prior)) Sgg
    (rowsub g (m_mean truth)) (j_mean law) (j_cov law).
