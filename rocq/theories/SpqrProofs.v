From Coq Require Import Reals Lra.
From Verif Require Import Base.
From mathcomp Require Import all_ssreflect all_algebra all_fingroup.
From Verif Require Import RealStruct SpqrModel SpqrSpec.
Set Implicit Arguments.
Unset Strict Implicit.
Unset Printing Implicit Defensive.
Import Order.TTheory GRing.Theory Num.Theory.
Local Open Scope ring_scope.

Section Factors.
Variable F : fieldType.
Lemma at_ord n (v : 'I_n -> F) (i : 'I_n) : at_ v i = v i.
Proof. by rewrite /at_ valK. Qed.
Lemma forward_size n (Rm : 'M[F]_n) b k : size (forward Rm b k) = k.
Proof. by elim: k => // k IH /=; rewrite size_rcons IH. Qed.
Lemma forward_nth n (Rm : 'M[F]_n) b k l j : (j < k)%N -> (k <= l)%N -> nth 0 (forward Rm b l) j = nth 0 (forward Rm b k) j.
Proof.
move=> jk; elim: l => [|l IH]; first by rewrite leqn0 => /eqP k0; rewrite k0 in jk.
rewrite leq_eqVlt => /orP [/eqP <- //|kl] /=; rewrite nth_rcons forward_size.
by rewrite (leq_trans jk kl) IH.
Qed.
(* forward substitution solves the transposed system *)
Lemma forward_solves n (Rm : 'M[F]_n) b (i : 'I_n) : (forall i j : 'I_n, (j < i)%N -> Rm i j = 0) -> Rm i i != 0 ->
  \sum_j Rm j i * nth 0 (forward Rm b n) j = b i.
Proof.
move=> up d.
rewrite (bigID (fun j : 'I_n => (j <= i)%N)) /= [X in _ + X]big1 ?addr0; last first.
  by move=> j; rewrite -ltnNge => ij; rewrite up // mul0r.
rewrite (bigD1 i) //= [nth 0 _ i](@forward_nth n Rm b i.+1 n i) //= nth_rcons forward_size ltnn eqxx !at_ord.
rewrite mulrCA mulfV // mulr1 addrC -[X in X + _](@eq_bigr _ _ _ _ _ _ (fun j : 'I_n => at_ (fun i0 : 'I_n => at_ (Rm i0) i) j * nth 0 (forward Rm b i) j)); last first.
  move=> j /andP [ji ne]; rewrite at_ord at_ord; congr (_ * _).
  have lt : (j < i)%N by rewrite ltn_neqAle ji andbT; exact: ne.
  by rewrite [RHS](@forward_nth n Rm b i n j) // ltnW.
rewrite (eq_bigl (fun j : 'I_n => (j < i)%N)); last by move=> j; rewrite ltn_neqAle andbC.
rewrite (big_ord_narrow (F := fun j : 'I_n => at_ (fun i0 : 'I_n => at_ (Rm i0) i) j * nth 0 (forward Rm b i) j) (ltnW (ltn_ord i))) /=.
by rewrite addrC subrK.
Qed.
Section Solve.
Variables (m n : nat) (qr : qr_state F n) (A : 'M[F]_(m, n)) (Rm : 'M[F]_n).
Hypothesis hqr : factorizes qr A Rm.
Let P := get_P qr.
Lemma get_P_perm : P = perm_mx (indices qr)^-1%g.
Proof.
apply/matrixP => i j; rewrite !mxE; congr (_ %:R).
by rewrite -(inj_eq (@perm_inj _ (indices qr)^-1%g)) permK.
Qed.
Lemma P_orth : P *m P^T = 1%:M.
Proof. by rewrite get_P_perm tr_perm_mx -perm_mxM mulgV perm_mx1. Qed.
Lemma P_orth' : P^T *m P = 1%:M.
Proof. by rewrite get_P_perm tr_perm_mx -perm_mxM mulVg perm_mx1. Qed.
Lemma get_P_cols p (B : 'M[F]_(p, n)) i j : (B *m P) i j = B i (indices qr j).
Proof.
rewrite !mxE (bigD1 (indices qr j)) //= big1 ?addr0 ?mxE ?eqxx ?mulr1 // => k ne.
by rewrite mxE (negbTE ne) mulr0.
Qed.
Lemma get_R_ok : (n <= stored_rows qr)%N -> get_R qr = Ok Rm.
Proof.
case: hqr => Q [QQ [AQ [up st]]]; rewrite /get_R => ->; congr Ok.
by apply/matrixP => i j; rewrite mxE; case: leqP => h; [exact: st|rewrite up].
Qed.
Lemma gram : A^T *m A = P *m (Rm^T *m Rm) *m P^T.
Proof.
case: hqr => Q [QQ [AQ [up st]]].
have AP : A *m P = Q *m Rm by apply/matrixP => i j; rewrite get_P_cols AQ.
have -> : A = Q *m Rm *m P^T by rewrite -AP -mulmxA P_orth mulmx1.
by rewrite !trmx_mul trmxK !mulmxA -[_ *m Q^T *m Q]mulmxA QQ mulmx1.
Qed.
Lemma det_R : \det Rm = \prod_i Rm i i.
Proof.
case: hqr => Q [QQ [AQ [up st]]].
rewrite -det_tr det_trig; first by apply: eq_bigr => i _; rewrite mxE.
by apply/is_trig_mxP => i j ij; rewrite mxE up.
Qed.
Lemma R_unit : [forall i, Rm i i != 0] = (A^T *m A \in unitmx).
Proof.
rewrite gram !unitmx_mul unitmx_tr get_P_perm unitmx_perm unitmx_tr unitmx_perm andbT /= andbb unitmxE det_R unitfE.
rewrite (prodf_seq_eq0 (index_enum (ordinal_finType n)) predT (fun i => Rm i i)).
apply/forallP/idP => [h|]; first by apply/hasPn => i _; rewrite /= h.
by move=> /hasPn h i; have := h i (mem_index_enum _).
Qed.
Lemma solve_spec p (B : 'M[F]_(n, p)) X : sqrt_solve Rm P B = Some X -> Rm^T *m X = P^T *m B.
Proof.
case: hqr => Q [QQ [AQ [up st]]]; rewrite /sqrt_solve; case: ifP => // /forallP h [<-].
apply/matrixP => i c; rewrite mxE -[RHS](@forward_solves n Rm (fun k => (P^T *m B) k c) i up (h i)).
by apply: eq_bigr => j _; rewrite !mxE.
Qed.
Lemma solve_gram p q (B : 'M[F]_(n, p)) (C : 'M[F]_(n, q)) X Y : sqrt_solve Rm P B = Some X -> sqrt_solve Rm P C = Some Y ->
  X^T *m Y = B^T *m invmx (A^T *m A) *m C.
Proof.
move=> EX EY; have Au : A^T *m A \in unitmx.
  by rewrite -R_unit; move: EX; rewrite /sqrt_solve; case: ifP.
have Ru : Rm \in unitmx.
  by move: Au; rewrite gram !unitmx_mul => /andP [/andP [_ /andP [_ ->]] _].
have -> : X = invmx Rm^T *m (P^T *m B) by rewrite -(solve_spec EX) mulmxA mulVmx ?unitmx_tr // mul1mx.
have -> : Y = invmx Rm^T *m (P^T *m C) by rewrite -(solve_spec EY) mulmxA mulVmx ?unitmx_tr // mul1mx.
have -> : invmx (A^T *m A) = P *m (invmx Rm *m invmx Rm^T) *m P^T.
  have E : (A^T *m A) *m (P *m (invmx Rm *m invmx Rm^T) *m P^T) = 1%:M.
    rewrite gram !mulmxA -[_ *m P^T *m P]mulmxA P_orth' mulmx1 -[_ *m Rm *m _]mulmxA mulmxV // mulmx1.
    by rewrite -[_ *m Rm^T *m _]mulmxA mulmxV ?unitmx_tr // mulmx1 P_orth.
  by rewrite -[RHS](mulKmx Au) E mulmx1.
by rewrite !trmx_mul trmx_inv !trmxK !mulmxA.
Qed.
End Solve.
End Factors.
