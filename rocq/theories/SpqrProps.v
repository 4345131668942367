(* C84: QR factors, solves with them and the settings of a sparse QR. *)
From Coq Require Import Reals ZArith Lia.
From Verif Require Import Base.
From mathcomp Require Import all_ssreflect all_algebra all_fingroup.
From Verif Require Import RealStruct SpqrModel SpqrSpec SpqrProofs SpqrProofs2.
Set Implicit Arguments.
Unset Strict Implicit.
Unset Printing Implicit Defensive.
Import Order.TTheory GRing.Theory Num.Theory.
Local Open Scope ring_scope.

(* get_R is the triangular factor whatever is stored below the diagonal, and A get_P = Q get_R *)
Theorem C84_factors (F : fieldType) m n (qr : qr_state F n) (A : 'M[F]_(m, n)) Rm : factorizes qr A Rm -> (n <= stored_rows qr)%N ->
  get_R qr = Ok Rm /\ exists Q, Q^T *m Q = 1%:M /\ A *m get_P qr = Q *m Rm /\ get_P qr *m (get_P qr)^T = 1%:M.
Proof.
move=> h hn; split; first exact: get_R_ok h hn.
case: (h) => Q [QQ [AQ _]]; exists Q; split => //; split; last exact: P_orth.
by apply/matrixP => i j; rewrite get_P_cols AQ.
Qed.
Print Assumptions C84_factors.
(* with fewer rows than columns there is no such factor *)
Theorem C84_wide_refuted (F : fieldType) n (qr : qr_state F n) p (B : 'M[F]_(n, p)) : (stored_rows qr < n)%N ->
  get_R qr = Abort /\ sqrt_solve_qr qr B = Abort.
Proof. by move=> h; rewrite /sqrt_solve_qr /get_R leqNgt h. Qed.
Print Assumptions C84_wide_refuted.

(* sqrt_solve gives a finite result exactly when the columns are independent, it solves R^T X = P^T B, and inner products of results are
   those of the inverse of A^T A *)
Theorem C84_sqrt_solve (F : fieldType) m n (qr : qr_state F n) (A : 'M[F]_(m, n)) Rm p (B : 'M[F]_(n, p)) :
  factorizes qr A Rm -> (n <= stored_rows qr)%N -> A^T *m A \in unitmx ->
  exists X, sqrt_solve_qr qr B = Ok (Some X) /\ Rm^T *m X = (get_P qr)^T *m B /\ X^T *m X = B^T *m invmx (A^T *m A) *m B.
Proof.
move=> h hn u; rewrite /sqrt_solve_qr (get_R_ok h hn).
have E : exists X, sqrt_solve Rm (get_P qr) B = Some X by rewrite /sqrt_solve (R_unit h) u; eexists.
case: E => X E; exists X; rewrite E; split => //; split; [exact: (solve_spec h E)|exact: (solve_gram h E E)].
Qed.
Print Assumptions C84_sqrt_solve.
Theorem C84_inner_product (F : fieldType) m n (qr : qr_state F n) (A : 'M[F]_(m, n)) Rm p q (B : 'M[F]_(n, p)) (C : 'M[F]_(n, q)) X Y :
  factorizes qr A Rm -> (n <= stored_rows qr)%N -> sqrt_solve_qr qr B = Ok (Some X) -> sqrt_solve_qr qr C = Ok (Some Y) ->
  X^T *m Y = B^T *m invmx (A^T *m A) *m C.
Proof.
move=> h hn; rewrite /sqrt_solve_qr (get_R_ok h hn) => -[EX] [EY]; exact: (solve_gram h EX EY).
Qed.
Print Assumptions C84_inner_product.
Theorem C84_dependent (F : fieldType) m n (qr : qr_state F n) (A : 'M[F]_(m, n)) Rm p (B : 'M[F]_(n, p)) :
  factorizes qr A Rm -> (n <= stored_rows qr)%N -> A^T *m A \notin unitmx -> sqrt_solve_qr qr B = Ok None.
Proof. by move=> h hn u; rewrite /sqrt_solve_qr (get_R_ok h hn) /sqrt_solve (R_unit h) (negbTE u). Qed.
Print Assumptions C84_dependent.

(* the pivot threshold *)
Theorem C84_threshold_small m n (A : 'M[R]_(m, n)) size coef : (m < size)%N \/ (n < size)%N ->
  SPQR_pivot_threshold A size coef = (10%:R ^+ 15)^-1.
Proof. exact: threshold_small. Qed.
Print Assumptions C84_threshold_small.
Theorem C84_threshold_large m n (A : 'M[R]_(m, n)) size coef largest : (0 < n)%N -> (size <= m)%N -> (size <= n)%N ->
  largest_column A largest ->
  SPQR_pivot_threshold A size coef = coef * (m + n)%:R * (if largest == 0 then 1 else largest) * (2%:R ^+ 52)^-1.
Proof. exact: threshold_large. Qed.
Print Assumptions C84_threshold_large.
Theorem C84_threshold_positive m n (A : 'M[R]_(m, n)) size coef : 0 < coef -> (0 < n)%N -> 0 < SPQR_pivot_threshold A size coef.
Proof. exact: threshold_pos. Qed.
Print Assumptions C84_threshold_positive.
(* that of a large matrix follows its scale *)
Theorem C84_threshold_scale m n (A : 'M[R]_(m, n)) size coef c : (0 < n)%N -> (size <= m)%N -> (size <= n)%N -> c != 0 -> A != 0 ->
  SPQR_pivot_threshold (c *: A) size coef = `|c| * SPQR_pivot_threshold A size coef.
Proof. exact: threshold_scale. Qed.
Print Assumptions C84_threshold_scale.
(* that of a small matrix does not: any small matrix has multiples all of whose columns are below the threshold *)
Theorem C84_threshold_scale_refuted m n (A : 'M[R]_(m, n)) size coef : (m < size)%N \/ (n < size)%N ->
  exists2 c, 0 < c & forall j, column_norm (c *: A) j < SPQR_pivot_threshold (c *: A) size coef.
Proof. exact: threshold_absolute. Qed.
Print Assumptions C84_threshold_scale_refuted.

(* a created factorization is computed with the COLAMD ordering, the threads of the pool (of the defaults without one) and the threshold
   of its matrix *)
Theorem C84_create initial factor m n (A : 'M[R]_(m, n)) pool : (forall k, pool = Some k -> Z.lt (Z.of_nat k) (Z.pow 2 31)) ->
  let s := Settings Colamd (match pool with Some k => Z.of_nat k | None => s_threads initial end)
                    (Some (SPQR_pivot_threshold A 300 10%:R^-1)) in
  SPQR_create_of initial factor A pool = (s, factor s m n A).
Proof.
rewrite /SPQR_create_of /SPQR_create /SPQR_set_threads; case: pool => [k|] h //=.
suff E : to_int k = Z.of_nat k by rewrite /SPQR_set_pivot_threshold /= E.
have lt := h k erefl; rewrite /to_int Z.mod_small; first lia.
have E32 : Z.pow 2 32 = Z.mul 2 (Z.pow 2 31) by []; split; [lia|rewrite E32; lia].
Qed.
Print Assumptions C84_create.

(* the matrix with rows (0, 2), (1, 0): its columns exchanged are diagonal; below the diagonal something else is stored *)
Example C84_meets : let A : 'M[R]_2 := \matrix_(i, j) (if i == j then 0 else if i == 0 then 2%:R else 1) in
  let Rm : 'M[R]_2 := \matrix_(i, j) (if i == j then (if i == 0 then 2%:R else 1) else 0) in
  let qr := QrState 2%N (fun i j => if i == j then (if i == 0%N then 2%:R else 1) else if (i < j)%N then 0 else 7%:R) (tperm (0 : 'I_2) 1) in
  factorizes qr A Rm /\ (2 <= stored_rows qr)%N /\ A^T *m A \in unitmx /\ A != 0.
Proof.
have two (i : 'I_2) : i = 0 \/ i = 1.
  by case: i => [[|[|//]] h]; [left|right]; apply: val_inj.
move=> A Rm qr; split; last split => //; last split.
- exists 1%:M; split; first by rewrite trmx1 mulmx1.
  split; last split.
  + move=> i j; rewrite mul1mx /=.
    by case: (two j) => ->; rewrite ?tpermL ?tpermR !mxE; case: (two i) => ->.
  + by move=> i j ij; rewrite !mxE; case: eqP => // E; rewrite E ltnn in ij.
  + by move=> i j; rewrite mxE; case: (two i) => ->; case: (two j) => ->.
- rewrite unitmx_mul unitmx_tr andbb unitmxE unitfE (expand_det_row _ 0) !big_ord_recl big_ord0 /cofactor !det_mx11 !mxE /=.
  by rewrite !mul0r !addr0 !add0r mulr1 mulf_neq0 ?expf_neq0 ?oppr_eq0 ?oner_eq0 ?pnatr_eq0.
- by apply/eqP => /matrixP /(_ 0 1) /eqP; rewrite !mxE /= pnatr_eq0.
Qed.
