(* Vocabulary of C81. *)
From Coq Require Import ZArith String.
From Verif Require Import Base CerealModel CerealSpec SuiteSparseModel.
Open Scope string_scope.
Open Scope nat_scope.
Open Scope list_scope.

(* a pointer to an array of exactly n bytes *)
Definition owns {B} (a : array B) (n : nat) : Prop := exists b, a = Some b /\ length b = n.
(* sizes of an index and of an entry *)
Definition index_bytes (itype : Z) : nat := if (itype =? 2)%Z then 8 else 4.
Definition entry_bytes (dtype : Z) : nat := if (dtype =? 0)%Z then 8 else 4.
Definition complex : Z := 2.

(* a real matrix with all its arrays: the row counts only when the columns are not packed *)
Record whole_sparse {B} (m : cholmod_sparse B) : Prop := {
  ws_itype : itype (sh B m) = 0%Z \/ itype (sh B m) = 2%Z;
  ws_xtype : xtype (sh B m) <> complex;
  ws_p : owns (s_p B m) ((ncol (sh B m) + 1) * index_bytes (itype (sh B m)));
  ws_i : owns (s_i B m) (nzmax (sh B m) * index_bytes (itype (sh B m)));
  ws_nz : packed (sh B m) = 0%Z -> owns (s_nz B m) (ncol (sh B m) * index_bytes (itype (sh B m)));
  ws_x : owns (s_x B m) (nzmax (sh B m) * entry_bytes (dtype (sh B m)));
  ws_z : s_z B m = None }.
(* no array of it is empty *)
Definition no_empty_array {B} (m : cholmod_sparse B) : Prop :=
  0 < nzmax (sh B m) /\ (packed (sh B m) = 0%Z -> 0 < ncol (sh B m)).
(* equal but for the row counts of a packed matrix, which are not used *)
Definition same_sparse {B} (m m' : cholmod_sparse B) : Prop :=
  sh B m' = sh B m /\ s_p B m' = s_p B m /\ s_i B m' = s_i B m /\ s_x B m' = s_x B m /\ s_z B m' = s_z B m /\
  (packed (sh B m) = 0%Z -> s_nz B m' = s_nz B m).

Record whole_dense {B} (m : cholmod_dense B) : Prop := {
  wd_d : d_nrow (dh B m) <= d_d (dh B m);
  wd_x : owns (d_x B m) (d_nzmax (dh B m) * (if (d_xtype (dh B m) =? complex)%Z then 2 else 1) * entry_bytes (d_dtype (dh B m)));
  wd_z : d_z B m = None }.

(* the members that are archived, and the kind of value that a member holds *)
Definition holds {bytes} (k : kind) (t : tok bytes) : Prop :=
  match k, t with KD, TDbl _ => True | KI, TInt _ => True | KN, TNat _ => True | _, _ => False end.
Definition typed {bytes} (fields : list (string * kind)) (m : members bytes) : Prop :=
  Forall (fun f => holds (snd f) (m (fst f))) fields.
Definition common_fields (old : bool) : list (string * kind) :=
  save_before ++ save_ordering ++ save_statistics old ++ [("cc.useGPU", KI)] ++ save_timings.
Record whole_common {bytes} (old : bool) (cc : common bytes) : Prop := {
  wc_members : typed (common_fields old) (c_members bytes cc);
  wc_gpu : c_members bytes cc "cc.useGPU" = TInt 0%Z;
  wc_methods : Forall (typed method_fields) (c_methods bytes cc) }.
(* m' is m in the fields and m0 elsewhere *)
Definition updated {bytes} (fields : list (string * kind)) (m0 m m' : members bytes) : Prop :=
  forall n, (In n (map fst fields) -> m' n = m n) /\ (~ In n (map fst fields) -> m' n = m0 n).

(* a factorization that has been computed *)
Record whole_spqr {bytes B RM} (old : bool) (q : spqr bytes B RM) : Prop := {
  wq_cc : whole_common old (q_cc bytes B RM q);
  wq_cR : exists m, q_cR bytes B RM q = Some m /\ whole_sparse m /\ owns (q_E bytes B RM q) (ncol (sh B m) * 8);
  wq_H : exists m, q_H bytes B RM q = Some m /\ whole_sparse m;
  wq_HTau : exists m, q_HTau bytes B RM q = Some m /\ whole_dense m;
  wq_HPinv : owns (q_HPinv bytes B RM q) (q_rows bytes B RM q * 8) }.
(* the first n bytes of an array *)
Definition prefix {B} (n : nat) (a : array B) : option (list B) :=
  match a with Some b => if length b <? n then None else Some (firstn n b) | None => None end.
(* q' is q but for m_R, what is not archived of m_cc (taken from cc0) and bytes that are never read *)
Record same_spqr {bytes B RM RM'} (old : bool) (cc0 : common bytes) (q : spqr bytes B RM) (q' : spqr bytes B RM') : Prop := {
  sq_isInitialized : q_isInitialized _ _ _ q' = q_isInitialized _ _ _ q;
  sq_analysisIsOk : q_analysisIsOk _ _ _ q' = q_analysisIsOk _ _ _ q;
  sq_factorizationIsOk : q_factorizationIsOk _ _ _ q' = q_factorizationIsOk _ _ _ q;
  sq_isRUpToDate : q_isRUpToDate _ _ _ q' = q_isRUpToDate _ _ _ q;
  sq_info : q_info _ _ _ q' = q_info _ _ _ q;
  sq_ordering : q_ordering _ _ _ q' = q_ordering _ _ _ q;
  sq_allow_tol : q_allow_tol _ _ _ q' = q_allow_tol _ _ _ q;
  sq_tolerance : q_tolerance _ _ _ q' = q_tolerance _ _ _ q;
  sq_rank : q_rank _ _ _ q' = q_rank _ _ _ q;
  sq_useDefaultThreshold : q_useDefaultThreshold _ _ _ q' = q_useDefaultThreshold _ _ _ q;
  sq_rows : q_rows _ _ _ q' = q_rows _ _ _ q;
  sq_members : updated (common_fields old) (c_members _ cc0) (c_members _ (q_cc _ _ _ q)) (c_members _ (q_cc _ _ _ q'));
  sq_methods : Forall2 (fun m m' => forall n, In n (map fst method_fields) -> m' n = m n)
                 (c_methods _ (q_cc _ _ _ q)) (c_methods _ (q_cc _ _ _ q'));
  sq_cR : exists m m', q_cR _ _ _ q = Some m /\ q_cR _ _ _ q' = Some m' /\ same_sparse m m' /\
            prefix (ncol (sh B m) * 8) (q_E _ _ _ q') = prefix (ncol (sh B m) * 8) (q_E _ _ _ q);
  sq_H : exists m m', q_H _ _ _ q = Some m /\ q_H _ _ _ q' = Some m' /\ same_sparse m m';
  sq_HTau : q_HTau _ _ _ q' = q_HTau _ _ _ q;
  sq_HPinv : prefix (q_rows _ _ _ q * 8) (q_HPinv _ _ _ q') = prefix (q_rows _ _ _ q * 8) (q_HPinv _ _ _ q) }.
