(* Specification vocabulary used in IndexingProps.v *)
From Verif Require Import Base StdMapModel.

(* [m] partitions [0, n): the specification used for all groupers *)
Definition indexer_partitions {K} `{OrdKey K} (m : smap K (list nat)) (n : nat) : Prop :=
  wf_map m /\
  (forall k l, mfind k m = Some l -> l <> [] /\ StronglySorted lt l /\ Forall (fun i => i < n) l) /\
  (forall i, i < n -> exists k l, mfind k m = Some l /\ In i l) /\
  (forall k1 l1 k2 l2 i, mfind k1 m = Some l1 -> mfind k2 m = Some l2 ->
     In i l1 -> In i l2 -> k1 = k2).

