(* Concrete covariance functions for the properties of the callers. *)
From mathcomp Require Import all_ssreflect all_algebra.
From Verif Require Import GpSpec PsdProofs CallerModel CallerSpec CallerProofs CallerProofs2 CallerProofs3 CallerPsd.
Set Implicit Arguments.
Unset Strict Implicit.
Unset Printing Implicit Defensive.
Import Order.TTheory GRing.Theory Num.Theory.
Local Open Scope ring_scope.

Notation ratval := (val rat_fieldType nat).
(* a kernel and noise on the class 0; one on the class 1; one on both *)
Definition only (a : nat) : nat -> nat -> bool := fun x y => (x == a) && (y == a).
Definition same (p q : nat) : rat := if p == q then 1 else 2%:R^-1.
Definition ex_k : cov_expr rat_fieldType nat := Leaf (only 0) (fun _ p _ q => same p q).
Definition ex_noise : cov_expr rat_fieldType nat := Leaf (only 0) (fun _ p _ q => if p == q then 3%:R else 0).
Definition ex_both : cov_expr rat_fieldType nat := Leaf (fun _ _ => true) (fun _ _ _ _ => 1).
Definition ex_gp : cov_expr rat_fieldType nat := Sum ex_k (OnlyMeasured ex_noise).
Definition obj (b p : nat) : ratval := VBase rat_fieldType b p.
Definition lc : ratval := VLin (TBase 0) [:: (2%:R, obj 0 1%N); (-1, obj 0 2)].

Lemma same_sym p q : same p q = same q p.
Proof. by rewrite /same eq_sym. Qed.
Lemma ex_k_sym : leaves_symmetric ex_k.
Proof. by move=> a p b q _ _; exact: same_sym. Qed.
Lemma ex_gp_sym : leaves_symmetric ex_gp.
Proof. by split=> a p b q _ _ /=; [exact: same_sym|rewrite eq_sym]. Qed.

(* positive semi-definite leaves *)
Lemma block_kernel (n : nat) (w : 'I_n -> rat) (c : 'I_n -> nat) :
  psd (\matrix_(i, j) (if c i == c j then w i * w j else 0)).
Proof.
split; first by apply/matrixP => i j; rewrite !mxE eq_sym mulrC.
move=> x; rewrite quadE.
have [N hN] : exists N, forall i, (c i < N)%N.
  exists (\max_i c i).+1 => i; rewrite ltnS; exact: (leq_bigmax i).
have -> : \sum_i \sum_j x i 0 * (\matrix_(i, j) (if c i == c j then w i * w j else 0)) i j * x j 0 =
  \sum_(v < N) (\sum_(i | c i == v) w i * x i 0) ^+ 2.
  transitivity (\sum_(v < N) \sum_i \sum_j (if c i == v then w i * x i 0 else 0) * (if c j == v then w j * x j 0 else 0)).
    rewrite [RHS]exchange_big /=; apply: eq_bigr => i _; rewrite [RHS]exchange_big /=; apply: eq_bigr => j _.
    rewrite (bigD1 (Ordinal (hN i))) //= eqxx big1 ?addr0; last first.
      move=> v nv; rewrite (_ : (c i == v) = false) ?mul0r //; apply/negbTE; apply: contra nv => /eqP e1.
      by apply/eqP/val_inj; rewrite /= e1.
    rewrite mxE [c j == _]eq_sym; case: ifP => _; rewrite ?mulr0 ?mul0r //.
    by rewrite !mulrA [x i 0 * w i]mulrC.
  apply: eq_bigr => v _; rewrite expr2 [in RHS]big_mkcond /= mulr_suml; apply: eq_bigr => i _.
  by rewrite mulr_sumr.
by apply: sumr_ge0 => v _; exact: sqr_ge0.
Qed.
Lemma psd_ext n (A B : 'M[rat]_n) : A =2 B -> psd A -> psd B.
Proof. by move=> h; have -> : A = B by apply/matrixP. Qed.
Definition on_class (a : nat) (x : nat * nat) : rat := if x.1 == a then 1 else 0.
Lemma ex_const_psd a (c : rat) : 0 <= c -> leaf_psd (only a) (fun _ (_ : nat) _ (_ : nat) => c).
Proof.
move=> c0 n x; apply: psd_ext (psdZ c0 (block_kernel (fun i => on_class a (x i)) (fun _ => 0%N))) => i j.
rewrite !mxE /= /on_class /only; case: (_ == a); case: (_ == a) => /=; by rewrite ?mulr1 ?mulr0.
Qed.
Lemma ex_k_psd : psd_built ex_k.
Proof.
rewrite /ex_k /psd_built /leaf_psd /meaning /same.
have h0 : 0 <= (2%:R^-1 : rat) by rewrite invr_ge0 ler0n.
have hh : (2%:R^-1 : rat) + 2%:R^-1 = 1 by apply/eqP; vm_compute.
move: (2%:R^-1) h0 hh => h h0 hh n x.
have h1 := block_kernel (fun i => on_class 0 (x i)) (fun _ => 0%N).
have h2 := block_kernel (fun i => on_class 0 (x i)) (fun i => (x i).2).
apply: psd_ext (psdD (psdZ h0 h1) (psdZ h0 h2)) => i j; rewrite !mxE /on_class /only eqxx.
rewrite [(x j).2 == _]eq_sym.
by case: ((x i).2 == _); case: ((x i).1 == _); case: ((x j).1 == _); rewrite /= ?mulr1 ?mulr0 ?addr0.
Qed.
Lemma ex_noise_psd : psd_built ex_noise.
Proof.
rewrite /ex_noise /psd_built /leaf_psd /meaning.
have h0 : 0 <= (3%:R : rat) by rewrite ler0n.
move: (3%:R) h0 => h h0 n x; apply: psd_ext (psdZ h0 (block_kernel (fun i => on_class 0 (x i)) (fun i => (x i).2))) => i j.
rewrite !mxE /on_class /only [(x j).2 == _]eq_sym.
by case: ((x i).2 == _); case: ((x i).1 == _); case: ((x j).1 == _); rewrite /= ?mulr1 ?mulr0 ?addr0.
Qed.
Lemma ex_both_psd : psd_built ex_both.
Proof.
move=> n x; apply: psd_ext (block_kernel (fun _ => 1) (fun _ => 0%N)) => i j.
by rewrite !mxE.
Qed.
(* a product, scaled, with measurement noise *)
Definition ex_big : cov_expr rat_fieldType nat :=
  Sum (ScaledL (fun a => a == 0%N) (fun _ p => p%:R) (Product ex_k ex_k)) (OnlyMeasured ex_noise).
Lemma ex_big_sym : leaves_symmetric ex_big.
Proof. exact: (conj (conj ex_k_sym ex_k_sym) (proj2 ex_gp_sym)). Qed.
Lemma ex_big_psd : psd_built ex_big.
Proof. exact: (conj (conj ex_k_psd (conj ex_k_psd (fun a b => erefl))) ex_noise_psd). Qed.
