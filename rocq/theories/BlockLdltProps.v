(* C44: solve, sqrt_solve and log_determinant of BlockDiagonalLDLT, for factorizations in the
   sense of LdltSpec.v. *)
From Coq Require Import Reals.
From Verif Require Import Base.
From mathcomp Require Import all_ssreflect all_algebra.
From Verif Require Import RealStruct LdltModel LdltSpec LdltProofs BlockDiagModel BlockDiagSpec BlockDiagProofs
  BlockLdltModel BlockLdltSpec BlockLdltProofs LdltProps.
Set Implicit Arguments.
Unset Strict Implicit.
Unset Printing Implicit Defensive.
Import Order.TTheory GRing.Theory Num.Theory.
Local Open Scope ring_scope.

Lemma blocks_rows tolerance bs : List.list_sum (List.map lb_rows (ldlt_blocks tolerance bs)) = sum_rows (dense_blocks bs).
Proof. by rewrite /sum_rows; elim: bs => //= b bs ->. Qed.

(* the result X solves dense(A) X = rhs, serially and with a pool for every schedule *)
Theorem C44_solve (tolerance : R) (bs : seq factored) (rhs : dmx) :
  (forall b, List.In b bs -> factors (fb_f b) (fb_A b) /\ forall i, tolerance < `|vectorD (fb_f b) i 0|) ->
  0 <= tolerance -> drows rhs = sum_rows (dense_blocks bs) ->
  exists X : nat -> nat -> R,
    matrix_is (rowwise lb_solve (ldlt_blocks tolerance bs) rhs) (drows rhs) (dcols rhs) X /\
    (forall pool sched out, rowwise_pool lb_solve pool (ldlt_blocks tolerance bs) rhs sched = Some out ->
       matrix_is out (drows rhs) (dcols rhs) X) /\
    forall i j, (i < drows rhs)%N -> rsum (fun k => dense_at (dense_blocks bs) i k * X k j) (drows rhs) = dat rhs i j.
Proof.
move=> H t0 Hr; pose Ms := [seq dmx_of (invmx (fb_A b)) | b <- bs].
have [F1 F2] : List.Forall2 (acts lb_solve) (ldlt_blocks tolerance bs) Ms /\ List.Forall2 inverse_of (dense_blocks bs) Ms.
  rewrite /Ms; elim: bs H {Hr Ms} => [|b bs IH] H; first by split; constructor.
  have [F1 F2] := IH (fun b' i => H b' (or_intror i)).
  have [fA Dt] := H b (or_introl erefl); have [a1 a2] := acts_solve fA t0 Dt.
  by split; constructor.
have Hr' : drows rhs = List.list_sum (List.map lb_rows (ldlt_blocks tolerance bs)) by rewrite blocks_rows.
exists (product_of Ms rhs); split; first exact: rowwise_spec.
split; first by move=> pool sched out; exact: rowwise_pool_spec.
by move=> i j Hi; rewrite Hr; apply: solve_dense => //; apply/ssrnat.ltP; rewrite -Hr.
Qed.
Print Assumptions C44_solve.

(* sqrt_solve: a block diagonal square root S of dense(A), and S X = rhs *)
Theorem C44_sqrt_solve (tolerance : R) (bs : seq factored) (rhs : dmx) :
  (forall b, List.In b bs -> factors (fb_f b) (fb_A b) /\ positive_D (fb_f b)) ->
  drows rhs = sum_rows (dense_blocks bs) ->
  exists (Ss : seq dmx) (X : nat -> nat -> R),
    matrix_is (rowwise lb_sqrt_solve (ldlt_blocks tolerance bs) rhs) (drows rhs) (dcols rhs) X /\
    (forall pool sched out, rowwise_pool lb_sqrt_solve pool (ldlt_blocks tolerance bs) rhs sched = Some out ->
       matrix_is out (drows rhs) (dcols rhs) X) /\
    (forall i j, (i < drows rhs)%N -> (j < drows rhs)%N ->
       rsum (fun k => dense_at Ss i k * dense_at Ss j k) (drows rhs) = dense_at (dense_blocks bs) i j) /\
    forall i j, (i < drows rhs)%N -> rsum (fun k => dense_at Ss i k * X k j) (drows rhs) = dat rhs i j.
Proof.
move=> H Hr.
have [Ss [Ms [F1 [F2 [F3 F4]]]]] : exists Ss Ms : seq dmx,
    List.Forall2 (acts lb_sqrt_solve) (ldlt_blocks tolerance bs) Ms /\ List.Forall2 inverse_of Ss Ms /\
    List.Forall2 root_of (dense_blocks bs) Ss /\ sum_rows Ss = sum_rows (dense_blocks bs).
  elim: bs H {Hr} => [|b bs IH] H; first by exists [::], [::]; do !split; constructor.
  have [Ss [Ms [F1 [F2 [F3 F4]]]]] := IH (fun b' i => H b' (or_intror i)).
  have [fA Dt] := H b (or_introl erefl); have [S [a1 [a2 a3]]] := acts_sqrt tolerance fA Dt.
  exists (dmx_of S :: Ss), (dmx_of (invmx S) :: Ms); do ![split; first by constructor].
  by move: F4; rewrite /sum_rows /= => ->.
have Hr' : drows rhs = List.list_sum (List.map lb_rows (ldlt_blocks tolerance bs)) by rewrite blocks_rows.
exists Ss, (product_of Ms rhs); split; first exact: rowwise_spec.
split; first by move=> pool sched out; exact: rowwise_pool_spec.
split.
  move=> i j Hi Hj; rewrite Hr; apply: dense_root => //; apply/ssrnat.ltP; by rewrite -Hr.
move=> i j Hi; rewrite Hr -F4; apply: solve_dense; rewrite ?F4 //; apply/ssrnat.ltP; by rewrite -Hr.
Qed.
Print Assumptions C44_sqrt_solve.

(* log_determinant is the logarithm of the determinant of the dense matrix *)
Theorem C44_log_determinant (tolerance : R) (bs : seq factored) :
  (forall b, List.In b bs -> factors (fb_f b) (fb_A b) /\ positive_D (fb_f b)) ->
  let dense := square_mx (sum_rows (dense_blocks bs)) (dense_at (dense_blocks bs)) in
  0 < \det dense /\ ldlt_log_determinant (ldlt_blocks tolerance bs) = Rpower.ln (\det dense).
Proof. by move=> H /=; rewrite det_dense; exact: ldlt_log_big. Qed.
Print Assumptions C44_log_determinant.

Definition ex_factored : factored :=
  Factored ex_ldlt ((transpositions_mx ex_ldlt)^T *m matrixL ex_ldlt *m diag_mx (vectorD ex_ldlt)^T *m
                    (matrixL ex_ldlt)^T *m transpositions_mx ex_ldlt).
Example C44_ldlt_example :
  (forall b, List.In b [:: ex_factored; ex_factored] ->
     factors (fb_f b) (fb_A b) /\ positive_D (fb_f b) /\ forall i, 0 < `|vectorD (fb_f b) i 0|) /\
  sum_rows (dense_blocks [:: ex_factored; ex_factored]) = 4%N.
Proof.
split=> // b [<-|[<-|//]] /=; (split; first by []); (split; first by have [] := C45_example);
  by move=> i; rewrite normr_gt0 gt_eqF //; have [] := C45_example.
Qed.
