(* Integer polynomials in two variables that are nonnegative for all positive z and for a from one integer to the next:
   substitute lo + 1 / (1 + v) for a, and c (1 + u) or c / (1 + u) for z, and look at the signs of the coefficients. *)
From Coq Require Import Reals ZArith List Bool Lra Lia.
Import ListNotations.
Local Open Scope R_scope.

(* ---- one variable: coefficients, lowest degree first ---- *)
Fixpoint peval (p : list Z) (x : R) : R := match p with [] => 0 | c :: p => IZR c + x * peval p x end.
Fixpoint padd (p q : list Z) : list Z :=
  match p, q with [], _ => q | _, [] => p | a :: p, b :: q => (a + b)%Z :: padd p q end.
Definition pscl (k : Z) (p : list Z) : list Z := map (Z.mul k) p.
Lemma padd_eval p q x : peval (padd p q) x = peval p x + peval q x.
Proof.
  revert q. induction p as [|a p IH]; intros [|b q]; simpl; try ring. rewrite IH, plus_IZR. ring.
Qed.
Lemma pscl_eval k p x : peval (pscl k p) x = IZR k * peval p x.
Proof. induction p as [|a p IH]; simpl; [ring|]. fold (pscl k p). rewrite IH, mult_IZR. ring. Qed.
Lemma nonneg_eval p x : 0 <= x -> forallb (Z.leb 0) p = true -> 0 <= peval p x.
Proof.
  intros x0. induction p as [|a p IH]; simpl; [lra|]. rewrite andb_true_iff, Z.leb_le. intros [A P]. apply IZR_le in A. specialize (IH P). nra.
Qed.

(* ---- two variables: coefficients of the second variable are polynomials in the first ---- *)
Fixpoint beval (P : list (list Z)) (a z : R) : R := match P with [] => 0 | c :: P => peval c a + z * beval P a z end.
Fixpoint badd (P Q : list (list Z)) : list (list Z) :=
  match P, Q with [], _ => Q | _, [] => P | a :: P, b :: Q => padd a b :: badd P Q end.
Definition bscl (k : Z) (P : list (list Z)) : list (list Z) := map (pscl k) P.
Lemma badd_eval P Q a z : beval (badd P Q) a z = beval P a z + beval Q a z.
Proof. revert Q. induction P as [|x P IH]; intros [|y Q]; simpl; try ring. rewrite IH, padd_eval. ring. Qed.
Lemma bscl_eval k P a z : beval (bscl k P) a z = IZR k * beval P a z.
Proof. induction P as [|x P IH]; simpl; [ring|]. fold (bscl k P). rewrite IH, pscl_eval. ring. Qed.

(* p (k + u) *)
Fixpoint pshift (k : Z) (p : list Z) : list Z :=
  match p with [] => [] | c :: p => let m := pshift k p in padd [c] (padd (pscl k m) (0%Z :: m)) end.
Lemma pshift_eval k p u : peval (pshift k p) u = peval p (IZR k + u).
Proof. induction p as [|c p IH]; [reflexivity|]. cbn [pshift]. cbv zeta. rewrite !padd_eval. cbn [peval]. rewrite pscl_eval, IH. ring. Qed.
Lemma peval_app p q x : peval (p ++ q) x = peval p x + x ^ length p * peval q x.
Proof. induction p as [|c p IH]; simpl; [ring|]. rewrite IH. ring. Qed.
Lemma rev_eval p y : y <> 0 -> y ^ length p * peval (rev p) (/ y) = y * peval p y.
Proof.
  intros y0. induction p as [|c p IH]; [simpl; ring|]. cbn [rev length]. rewrite peval_app, rev_length. cbn [peval].
  replace (y ^ S (length p) * (peval (rev p) (/ y) + (/ y) ^ length p * (IZR c + / y * 0))) with
    (y * (y ^ length p * peval (rev p) (/ y)) + y * IZR c * (y ^ length p * (/ y) ^ length p)) by (simpl; ring).
  rewrite IH, <- Rpow_mult_distr, Rinv_r, pow1 by auto. simpl. ring.
Qed.
Lemma beval_app P Q a z : beval (P ++ Q) a z = beval P a z + z ^ length P * beval Q a z.
Proof. induction P as [|c P IH]; simpl; [ring|]. rewrite IH. ring. Qed.
Lemma brev_eval P a y : y <> 0 -> y ^ length P * beval (rev P) a (/ y) = y * beval P a y.
Proof.
  intros y0. induction P as [|c P IH]; [simpl; ring|]. cbn [rev length]. rewrite beval_app, rev_length. cbn [beval].
  replace (y ^ S (length P) * (beval (rev P) a (/ y) + (/ y) ^ length P * (peval c a + / y * 0))) with
    (y * (y ^ length P * beval (rev P) a (/ y)) + y * peval c a * (y ^ length P * (/ y) ^ length P)) by (simpl; ring).
  rewrite IH, <- Rpow_mult_distr, Rinv_r, pow1 by auto. simpl. ring.
Qed.
Fixpoint bshift (lo : Z) (P : list (list Z)) : list (list Z) :=
  match P with [] => [] | c :: P' => let m := bshift lo P' in badd [c] (badd (bscl lo m) ([] :: m)) end.
Lemma bshift_eval lo P a u : beval (bshift lo P) a u = beval P a (IZR lo + u).
Proof.
  induction P as [|c P IH]; [reflexivity|]. cbn [bshift]. cbv zeta. rewrite !badd_eval. cbn [beval peval]. rewrite bscl_eval, IH. ring.
Qed.

(* rows with n coefficients, in the variable v with a = lo + 1 / (1 + v) *)
Definition pad (n : nat) (p : list Z) : list Z := p ++ repeat 0%Z (n - length p).
Definition arow (n : nat) (p : list Z) : list Z := pshift 1 (rev (pad n p)).
Lemma zeros_eval n x : peval (repeat 0%Z n) x = 0.
Proof. induction n as [|n IH]; simpl; [reflexivity | rewrite IH; ring]. Qed.
Lemma pad_eval n p x : peval (pad n p) x = peval p x.
Proof. unfold pad. rewrite peval_app, zeros_eval. ring. Qed.
Lemma pad_length n p : (length p <= n)%nat -> length (pad n p) = n.
Proof. intros L. unfold pad. rewrite app_length, repeat_length. lia. Qed.
Lemma arow_eval n p y : (length p <= n)%nat -> y <> 0 -> y ^ n * peval (arow n p) (/ y - 1) = y * peval p y.
Proof.
  intros L y0. unfold arow. rewrite pshift_eval. replace (1 + (/ y - 1)) with (/ y) by ring.
  rewrite <- (pad_eval n p), <- rev_eval, pad_length by auto. reflexivity.
Qed.
Lemma arows_eval n P y z : (forall p, In p P -> (length p <= n)%nat) -> y <> 0 ->
  y ^ n * beval (map (arow n) P) (/ y - 1) z = y * beval P y z.
Proof.
  intros L y0. induction P as [|p P IH]; [simpl; ring|]. cbn [map beval]. rewrite !Rmult_plus_distr_l, arow_eval by (auto; apply L; left; auto).
  rewrite <- !Rmult_assoc, (Rmult_comm (y ^ n) z), (Rmult_comm y z), !Rmult_assoc, IH; auto. intros q Q. apply L. right. auto.
Qed.
Lemma ashift_eval k P a z : beval (map (pshift k) P) a z = beval P (IZR k + a) z.
Proof. induction P as [|p P IH]; [reflexivity|]. cbn [map beval]. rewrite pshift_eval, IH. reflexivity. Qed.
(* the last s binary digits dropped *)
Definition trunc (s : Z) (P : list (list Z)) : list (list Z) := map (map (fun c => Z.shiftr c s)) P.
Lemma shiftr_le c s : (0 <= s)%Z -> IZR (2 ^ s) * IZR (Z.shiftr c s) <= IZR c.
Proof.
  intros S. rewrite Z.shiftr_div_pow2, <- mult_IZR by auto. apply IZR_le, Z.mul_div_le. apply Z.pow_pos_nonneg; lia.
Qed.
Lemma ptrunc_eval s p a : (0 <= s)%Z -> 0 <= a -> IZR (2 ^ s) * peval (map (fun c => Z.shiftr c s) p) a <= peval p a.
Proof.
  intros S A. induction p as [|c p IH]; simpl; [lra|]. pose proof (shiftr_le c s S).
  assert (a * (IZR (2 ^ s) * peval (map (fun c => Z.shiftr c s) p) a) <= a * peval p a) by (apply Rmult_le_compat_l; auto). lra.
Qed.
Lemma trunc_eval s P a z : (0 <= s)%Z -> 0 <= a -> 0 <= z -> IZR (2 ^ s) * beval (trunc s P) a z <= beval P a z.
Proof.
  intros S A Z. induction P as [|p P IH]; simpl; [lra|]. pose proof (ptrunc_eval s p a S A).
  assert (z * (IZR (2 ^ s) * beval (trunc s P) a z) <= z * beval P a z) by (apply Rmult_le_compat_l; auto). unfold trunc in *. lra.
Qed.
Lemma trunc_nonneg s P a z : (0 <= s)%Z -> 0 <= a -> 0 <= z -> 0 <= beval (trunc s P) a z -> 0 <= beval P a z.
Proof.
  intros S A Z N. eapply Rle_trans; [|apply (trunc_eval s); auto]. apply Rmult_le_pos; auto. apply IZR_le. apply Z.pow_nonneg. lia.
Qed.
(* c w for z *)
Fixpoint zscale (k c : Z) (P : list (list Z)) : list (list Z) :=
  match P with [] => [] | p :: P => pscl k p :: zscale (k * c) c P end.
Lemma zscale_eval k c P a w : beval (zscale k c P) a w = IZR k * beval P a (IZR c * w).
Proof. revert k. induction P as [|p P IH]; intros k; simpl; [ring|]. rewrite IH, pscl_eval, mult_IZR. ring. Qed.
Definition all_nonneg (P : list (list Z)) : bool := forallb (forallb (Z.leb 0)) P.
Lemma all_nonneg_eval P a z : all_nonneg P = true -> 0 <= a -> 0 <= z -> 0 <= beval P a z.
Proof.
  intros C A Z. induction P as [|c P IH]; simpl; [lra|]. simpl in C. apply andb_true_iff in C as [C C']. specialize (IH C').
  pose proof (nonneg_eval _ _ A C). assert (0 <= z * beval P a z) by (apply Rmult_le_pos; auto). lra.
Qed.
Definition both_sides (Q : list (list Z)) : bool := all_nonneg (bshift 1 Q) && all_nonneg (bshift 1 (rev Q)).
Lemma both_sides_ok Q v w : both_sides Q = true -> 0 <= v -> 0 < w -> 0 <= beval Q v w.
Proof.
  unfold both_sides. rewrite andb_true_iff. intros [C1 C2] V W. destruct (Rle_dec 1 w) as [w1|w1].
  - replace w with (1 + (w - 1)) by ring. rewrite <- bshift_eval. apply all_nonneg_eval; auto. lra.
  - assert (I : 1 <= / w) by (rewrite <- Rinv_1; apply Rinv_le_contravar; lra).
    assert (N : 0 <= beval (bshift 1 (rev Q)) v (/ w - 1)) by (apply all_nonneg_eval; auto; lra). rewrite bshift_eval in N.
    replace (1 + (/ w - 1)) with (/ w) in N by ring. pose proof (brev_eval Q v w ltac:(lra)) as E.
    apply (Rmult_le_reg_l w); [lra|]. rewrite <- E, Rmult_0_r. apply Rmult_le_pos; auto. apply pow_le; lra.
Qed.
Definition region_check (lo c s1 s2 : Z) (n : nat) (P : list (list Z)) : bool :=
  (0 <=? lo)%Z && (0 <? c)%Z && (0 <=? s1)%Z && (0 <=? s2)%Z &&
  let Q := trunc s2 (map (pshift lo) (trunc s1 (zscale 1 c P))) in
  forallb (fun p => Nat.leb (length p) n) Q && both_sides (map (arow n) Q).
Lemma region_ok lo c s1 s2 n P a z : region_check lo c s1 s2 n P = true -> IZR lo < a <= IZR lo + 1 -> 0 < z -> 0 <= beval P a z.
Proof.
  unfold region_check. set (Q0 := trunc s1 (zscale 1 c P)). set (Q := trunc s2 (map (pshift lo) Q0)). cbv zeta.
  rewrite !andb_true_iff, forallb_forall, Z.ltb_lt, !Z.leb_le. intros [[[[l0 c0] S1] S2] [L C]] A Z. apply IZR_lt in c0. apply IZR_le in l0.
  assert (L' : forall p, In p Q -> (length p <= n)%nat) by (intros p Pp; apply Nat.leb_le, L, Pp). clear L.
  set (y := a - IZR lo). assert (Y : 0 < y <= 1) by (unfold y; lra).
  assert (I : 1 <= / y) by (rewrite <- Rinv_1; apply Rinv_le_contravar; lra).
  assert (W : 0 < z / IZR c) by (apply Rdiv_lt_0_compat; auto).
  assert (N : 0 <= beval (map (arow n) Q) (/ y - 1) (z / IZR c)) by (apply both_sides_ok; auto; lra).
  assert (N1 : 0 <= beval Q y (z / IZR c)).
  { apply (Rmult_le_reg_l y); [lra|]. rewrite <- (arows_eval n Q y _ L') by lra. rewrite Rmult_0_r. apply Rmult_le_pos; auto. apply pow_le; lra. }
  apply trunc_nonneg in N1; auto; try lra. rewrite ashift_eval in N1. replace (IZR lo + y) with a in N1 by (unfold y; ring).
  apply trunc_nonneg in N1; auto; try lra. rewrite zscale_eval in N1. replace (IZR c * (z / IZR c)) with z in N1 by (field; lra). lra.
Qed.
