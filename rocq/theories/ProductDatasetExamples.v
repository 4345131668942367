(* Concrete datasets for C99. *)
From Coq Require Import Reals.
From mathcomp Require Import all_ssreflect all_algebra.
From Verif Require Import RealStruct GpModel GpSpec GpProofs GpProofs2 PsdProofs DistributionModel DistributionProps
  CallerModel CallerSpec CallerProofs CallerProofs2 CallerProofs3 CallerPsd CallerExamples ProductDatasetModel ProductDatasetSpec
  ProductDatasetProofs ProductDatasetProofs2.
Set Implicit Arguments.
Unset Strict Implicit.
Unset Printing Implicit Defensive.
Import Order.TTheory GRing.Theory Num.Theory.
Local Open Scope ring_scope.

Notation F := R_fieldType.
Notation rval := (val F nat).
Definition robj (p : nat) : rval := VBase F 0 p.
Definition white : cov_expr F nat := Leaf (only 0) (fun _ p _ q => if p == q then 1 else 0).
Definition noisy : cov_expr F nat := Sum white (OnlyMeasured white).
Definition flat : mean_expr F nat := MLeaf (only 0 0) (fun _ _ => 0).
Definition cov_of (e : cov_expr F nat) (f g : feature rval) : F := odflt 0 (cov_call (build e) (to_val f) (to_val g)).
Definition mu_of (f : feature rval) : F := odflt 0 (mean_call (m_build flat) (to_val f)).
Lemma cov_of_is e f g v : cov_call (build e) (to_val f) (to_val g) = Some v -> cov_of e f g = v.
Proof. by rewrite /cov_of => ->. Qed.
Lemma mu_of_is f v : mean_call (m_build flat) (to_val f) = Some v -> mu_of f = v.
Proof. by rewrite /mu_of => ->. Qed.
Lemma white_sym : leaves_symmetric white.
Proof. by move=> a p b q _ _ /=; rewrite eq_sym. Qed.
Lemma robj_factor p : factor (TBase 0) (robj p).
Proof. by apply: FactorAtom => //; exact: AtomBase. Qed.
Lemma white_cov p q : cov_of white (Bare (robj p)) (Bare (robj q)) = if p == q then 1 else 0.
Proof.
rewrite (cov_bare white_sym _ (@cov_of_is white) (robj_factor p) (robj_factor q)) //.
by rewrite /covariance /= !big_seq1 /= mul1r mul1r.
Qed.
Lemma flat_mu p : mu_of (Bare (robj p)) = 0.
Proof.
rewrite (mu_bare _ _ mu_of_is (robj_factor p)) //.
by rewrite /mean_of /= !big_seq1 /= mul1r.
Qed.

(* two objects, noise 1 each, and the matrix ((1, 0), (1, 1)) *)
Definition two : seq rval := [:: robj 0; robj 1].
Definition y2 : 'cV[F]_2 := \col_i (if i == 0 then 0 else 7%:R).
Definition t2 : md 2 := MD y2 (const_mx 1).
Definition M2 : 'M[F]_2 := \matrix_(i, j) (if i == 0 then if j == 0 then 1 else 0 else 1).
Definition xs2 : 'I_2 -> feature rval := fun i => Bare (nth (robj 0) two i).
Definition q0 : 'I_1 -> feature rval := fun j => Bare (robj 0).
Lemma two_ok : List.Forall (factor (TBase 0)) two.
Proof. by do !constructor. Qed.
Lemma two_type (f g : rval) : List.In f two -> List.In g two -> tyof f = tyof g.
Proof. by do 2![case=> [<-|[<-|//]]]. Qed.
Lemma K2 : cov_mx (cov_of white) xs2 xs2 = 1%:M.
Proof.
apply/matrixP => i j; rewrite !mxE /xs2.
have -> : nth (robj 0) two i = robj i by case: i => [[|[|]]].
have -> : nth (robj 0) two j = robj j by case: j => [[|[|]]].
by rewrite white_cov -val_eqE /=; case: ifP.
Qed.
Lemma D2 : diag (m_var t2) = 1%:M.
Proof. by apply/matrixP => i j; rewrite !mxE. Qed.
Lemma M2_unit : M2 \in unitmx.
Proof.
apply: (proj1 (mulmx1_unit (B := \matrix_(i, j) (if i == 0 then if j == 0 then 1 else 0 else if j == 0 then -1 else 1)) _)).
apply/matrixP => i j; rewrite !mxE !big_ord_recl big_ord0 !mxE /=.
case: i => [[|[|i]] hi] //; case: j => [[|[|j]] hj] //=; rewrite -?val_eqE /=; by rewrite ?mul0r ?mulr0 ?mul1r ?mulr1 ?addr0 ?add0r ?addrA ?addNr ?subrr.
Qed.
Lemma sub8 : (8%:R - 1 : F) = 7%:R.
Proof. by rewrite (natrB _ (n := 1) (m := 8)). Qed.
Lemma sub2 : (-1 + 2%:R : F) = 1.
Proof. exact: (addKr 1 1). Qed.
Definition S := M2 *m 1%:M *m M2^T + diag (product_noise M2 (m_var t2)).
Lemma S2 : S = \matrix_(i, j) (if i == 0 then if j == 0 then 2%:R else 1 else if j == 0 then 1 else 4%:R).
Proof.
rewrite /S /product_noise D2 mulmx1; apply/matrixP => i j; rewrite !mxE !big_ord_recl !big_ord0 !mxE /=.
case: i => [[|[|i]] hi] //; case: j => [[|[|j]] hj] //=; rewrite -?val_eqE /= ?mulr1n ?mulr0n; rewrite ?mul0r ?mulr0 ?mul1r ?mulr1 ?addr0 ?add0r //.
by rewrite -[1]/(1%:R) -!natrD.
Qed.

Lemma S2_unit : S \in unitmx.
Proof.
apply: (proj1 (mulmx1_unit (B := 7%:R^-1 *: \matrix_(i, j) (if i == 0 then if j == 0 then 4%:R else -1 else if j == 0 then -1 else 2%:R)) _)).
have h7 : (7%:R : F) != 0 by rewrite pnatr_eq0.
rewrite -scalemxAr S2; apply: (canLR (scalerK h7)).
apply/matrixP => i j; rewrite !mxE !big_ord_recl big_ord0 !mxE /=.
case: i => [[|[|i]] hi] //; case: j => [[|[|j]] hj] //=; rewrite ?mulr1n ?mulr0n; rewrite ?mulr0 ?mul1r ?mulr1 ?mulrN ?mulrN1 ?addr0 //.
- by rewrite -natrM; exact: sub8.
- by rewrite ?mulr1 ?addNr ?subrr.
- by rewrite ?mulr1 ?subrr.
- by rewrite -natrM addrC; exact: sub8.
Qed.
Definition w2 : 'cV[F]_2 := \col_i (if i == 0 then -1 else 2%:R).
Lemma S2_solved : S *m w2 = M2 *m m_mean t2.
Proof.
rewrite S2; apply/colP => i; rewrite !mxE !big_ord_recl !big_ord0 !mxE /=.
case: i => [[|[|i]] hi] //=; rewrite ?mulr0 ?mul1r ?mulr1 ?mulrN ?mulrN1 ?addr0 ?add0r //.
  by rewrite mulr1 mul0r addNr.
by rewrite -natrM addrC; exact: sub8.
Qed.
Lemma C2 : cov_mx (cov_of white) q0 xs2 = \row_j (if j == 0 then 1 else 0).
Proof. by apply/rowP => -[[|[|j]] hj] //; rewrite !mxE /= white_cov. Qed.
Lemma mu2 n (f : 'I_n -> nat) : mean_v mu_of (fun i => Bare (robj (f i))) = 0.
Proof. by apply/colP => i; rewrite !mxE flat_mu. Qed.
Lemma mx2 : mean_v mu_of xs2 = 0.
Proof. by apply/colP => -[[|[|j]] hj] //; rewrite !mxE flat_mu. Qed.
Lemma product_mean (p : jd 1) : learned_from (cov_of white) mu_of xs2 q0 M2 t2 p -> j_mean p 0 0 = 1.
Proof.
rewrite /learned_from; cbv zeta; rewrite K2 -/S => /(_ S2_unit) [W [/subr0_eq eW [-> _]]].
rewrite mx2 mulmx0 subr0 -S2_solved mulmxA -eW C2 [mean_v mu_of q0](mu2 (fun _ => 0%N)) add0r !mxE !big_ord_recl big_ord0 !mxE !big_ord_recl !big_ord0 !mxE /=.
by rewrite !mul0r !mul1r !addr0 ?mul1r; exact: sub2.
Qed.
Lemma plain_mean : j_mean (predict_joint (cov_of white) mu_of (fit (cov_of white) mu_of xs2 t2) q0) 0 0 = 0.
Proof.
have [bm mm] := bare_meas (e := white) (a := 0) white_sym isT isT (me := flat) isT isT (@cov_of_is white) mu_of_is (robj 0) two_ok erefl two_type.
have := plain_prediction (cov_of white) mu_of two (robj 0) (fun _ : 'I_1 => robj 0) (m_mean t2) (m_var t2).
rewrite -[at_ _ _ (p:=2)]/xs2 -/q0 bm mm => -> /=; rewrite K2 D2 mx2 subr0 -raddfD /= invmx_scalar mul_mx_scalar -scalemxAl.
rewrite [mean_v mu_of q0](mu2 (fun _ => 0%N)) addr0 !mxE !big_ord_recl big_ord0 !mxE /= !white_cov /=.
by rewrite mulr0 mul0r !addr0 mulr0.
Qed.

(* one object, noise of measurements 1 and variance 1 of the target, and the matrix 1 *)
Definition one : seq rval := [:: robj 0].
Definition t1 : md 1 := MD (const_mx 1) (const_mx 1).
Definition row1 : rval := VLin (TBase 0) [:: (1, robj 0)].
Lemma noisy_sym : leaves_symmetric noisy.
Proof. by split; exact: white_sym. Qed.
Lemma enum1 : enum 'I_1 = [:: 0].
Proof. by apply: (inj_map val_inj); rewrite val_enum_ord. Qed.
Lemma one_times : dense_times_dataset (TBase 0) (1%:M : 'M[F]_1) one t1 = Some ([:: row1], Some t1).
Proof.
rewrite /dense_times_dataset /dense_times /sparse_times /sparse_view enum1 /= mxE eqxx oner_eq0 /=.
have v1 i : 0 <= m_var t1 i 0 by rewrite mxE ler01.
rewrite (proj2 (proj1 (C62_transform_marginal 1%:M t1) v1)) /= mxE eqxx mulr1n; congr (Some (_, Some _)).
by rewrite /t1 /MD; congr Marginal; rewrite ?mul1mx //; apply/colP => i; rewrite ord1 trmx1 mulmx1 !mxE.
Qed.
Lemma row1_over : over_class 0 row1.
Proof. by apply: OverLin; split=> //; split=> //; exists 0%N, 0%N. Qed.
Lemma noisy_row : cov_of noisy (Measured row1) (Measured row1) = 1 /\ cov_of noisy (Bare row1) (Bare (robj 0)) = 1.
Proof.
have ht : terms_ok (@is_class_object F nat) (TBase 0) [:: (1, robj 0)] by split=> //; split=> //; exists 0%N, 0%N.
split; apply: cov_of_is => /=.
  rewrite (cov_call_over_class noisy_sym (OverMeasLin ht) (OverMeasLin ht)) //=.
  by rewrite /covariance /= !big_seq1 /= ?mulr1 ?mul1r addr0.
rewrite (cov_call_over_class noisy_sym (OverLin ht) (OverBase _ 0 0%N)) //=.
by rewrite /covariance /= !big_seq1 /= ?mulr1 ?mul1r addr0.
Qed.
Lemma noisy_obj : cov_of noisy (Measured (robj 0)) (Measured (robj 0)) = 2%:R /\ cov_of noisy (Bare (robj 0)) (Bare (robj 0)) = 1.
Proof.
split; apply: cov_of_is => /=.
  rewrite (cov_call_over_class noisy_sym (OverMeas _ 0 0%N) (OverMeas _ 0 0%N)) //=.
  by rewrite /covariance /= !big_seq1 /= ?mulr1 ?mul1r.
rewrite (cov_call_over_class noisy_sym (OverBase _ 0 0%N) (OverBase _ 0 0%N)) //=.
by rewrite /covariance /= !big_seq1 /= ?mulr1 ?mul1r addr0.
Qed.
Lemma flat_row : mu_of (Measured row1) = 0 /\ mu_of (Measured (robj 0)) = 0.
Proof.
have ht : terms_ok (@atom F nat) (TBase 0) [:: (1, robj 0)] by split=> //; split=> //; exact: AtomBase.
rewrite (mu_meas _ _ mu_of_is (FactorLin (erefl row1) ht)) // (mu_meas _ _ mu_of_is (robj_factor 0)) //.
by rewrite /mean_of /= !big_seq1 /= ?mul1r ?mulr0.
Qed.
Lemma one_mean (g : 'I_1 -> feature rval) (f : rval) v : g 0 = Bare f -> cov_of noisy (Measured f) (Measured f) = v -> cov_of noisy (Bare f) (Bare (robj 0)) = 1 -> mu_of (Measured f) = 0 ->
  j_mean (predict_joint (cov_of noisy) mu_of (fit (cov_of noisy) mu_of g t1) (fun _ : 'I_1 => Bare (robj 0))) 0 0 = (v + 1)^-1.
Proof.
move=> eg ev ec em.
rewrite /predict_joint /fit /make_fit /gp_joint_prediction /gp_mean_prediction /= /ldlt.
have -> : cov_mx (cov_of noisy) (as_measurement (X:=rval) \o g) (as_measurement (X:=rval) \o g) + diag (const_mx 1) = (v + 1)%:M.
  by apply/matrixP => i j; rewrite !mxE /= !ord1 eg /= ev ?eqxx.
have -> : mean_v mu_of (as_measurement (X:=rval) \o g) = 0 by apply/colP => i; rewrite !mxE /= ord1 eg.
have -> : cov_mx (cov_of noisy) g (fun _ : 'I_1 => Bare (robj 0)) = const_mx 1 by apply/matrixP => i j; rewrite !mxE ord1 eg.
rewrite [mean_v mu_of _](mu2 (fun _ => 0%N)) addr0 subr0 invmx_scalar mul_scalar_mx !mxE big_ord_recl big_ord0 !mxE.
by rewrite mul1r addr0 mulr1.
Qed.
