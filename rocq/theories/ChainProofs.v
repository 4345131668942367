(* Proofs of C103. *)
From Coq Require Import Reals.
From Verif Require Import ExtRealModel DistanceModel DistanceProofs RadialModel GaussianModel.
From mathcomp Require Import all_ssreflect all_algebra.
From Verif Require Import RealStruct GpModel GpSpec GpHistory GpProofs GpProofs2 GpProofs3 GpProofs4 PsdProofs LdltModel LdltSpec LdltProofs SparseGpSpec SparseGpProofs SparseGpProofs2 SparseGpExamples LikelihoodModel LikelihoodSpec LikelihoodProofs ChainSpec MxTac.
From Verif Require Base.
Set Implicit Arguments.
Unset Strict Implicit.
Unset Printing Implicit Defensive.
Import Order.TTheory GRing.Theory Num.Theory.
Local Open Scope ring_scope.

Lemma pd_det n (A : 'M[R]_n) : pd A -> 0 < \det A.
Proof. move=> Ap; apply: det_pos (plain_ldlt_contract Ap) _; exact: factors_pd (plain_ldlt_contract Ap) Ap. Qed.

(* the density of two parts is that of the first times that of the second given the first *)
Lemma density_block n m (A : 'M[R]_n) (B : 'M[R]_(n, m)) (D : 'M[R]_m) (x : 'cV[R]_n) (y : 'cV[R]_m) :
  pd (block_mx A B B^T D) ->
  gaussian_log_density (block_mx A B B^T D) (col_mx x y) =
  (gaussian_log_density A x + gaussian_log_density (D - B^T *m invmx A *m B) (y - B^T *m invmx A *m x))%R.
Proof.
move=> pM; have [pA [_ pS]] := pd_block pM; set S := D - _ in pS *.
have Au := pd_unit pA; have Su := pd_unit pS.
have sI : (invmx A)^T = invmx A by case: (pd_inv pA).
pose E : 'M[R]_(n + m) := block_mx 1%:M (invmx A *m B) 0 1%:M.
have dE : \det E = 1 by rewrite /E det_ublock !det1 mulr1.
have Eu : E \in unitmx by rewrite unitmxE dE unitr1.
pose Q : 'M[R]_(n + m) := block_mx A 0 0 S.
have ME : block_mx A B B^T D = E^T *m Q *m E.
  rewrite /E /Q tr_block_mx !trmx1 trmx0 trmx_mul sI !mulmx_block.
  rewrite !mul1mx !mulmx1 !mul0mx !mulmx0 !addr0 ?add0r mulmxKV // mulmxA mulmxV // mul1mx.
  by rewrite mulmxA addrC subrK.
have Qu : Q \in unitmx by rewrite unitmxE /Q det_ublock unitrM -!unitmxE Au.
have dM : \det (block_mx A B B^T D) = \det Q by rewrite ME !det_mulmx det_tr dE mul1r mulr1.
have iM : invmx (block_mx A B B^T D) = invmx E *m invmx Q *m (invmx E)^T.
  have e : block_mx A B B^T D *m (invmx E *m invmx Q *m (invmx E)^T) = 1%:M.
    rewrite ME !mulmxA mulmxK // -!mulmxA [Q *m _]mulmxA mulmxV // mul1mx -trmx_mul mulVmx //.
    exact: trmx1.
  have Mu := pd_unit pM.
  by rewrite -[LHS]mulmx1 -e mulKmx.
have vE : (invmx E)^T *m col_mx x y = col_mx x (y - B^T *m invmx A *m x).
  have Et : E^T \in unitmx by rewrite unitmx_tr.
  rewrite trmx_inv; apply: (canLR (mulKmx Et)).
  rewrite /E tr_block_mx !trmx1 trmx0 trmx_mul sI mul_block_col !mul1mx mul0mx addr0.
  by rewrite [_ + (y - _)]addrC subrK.
have QE : gaussian_log_density (block_mx A B B^T D) (col_mx x y) = gaussian_log_density Q ((invmx E)^T *m col_mx x y).
  by rewrite /gaussian_log_density dM iM trmx_mul trmxK !mulmxA.
rewrite QE vE.
have := nll_of_block x (y - B^T *m invmx A *m x) pA pS (pd_det pA) (pd_det pS); rewrite /nll_of -/Q.
by rewrite -opprD => /oppr_inj.
Qed.

Section Chain.
Variable X : Type.
Variable cov : feature X -> feature X -> R.
Variable mu : feature X -> R.
Hypothesis cov_sym : forall x y, cov x y = cov y x.

Lemma chain_like n m (gp : gp_fit R_fieldType X n) (xs : 'I_n -> feature X) t (ys : 'I_m -> feature X) s :
  like_fit cov mu gp xs t -> agree_new cov mu xs ys -> pd (kmat cov (concat_f xs ys) (concat_t t s)) ->
  gaussian_log_density (kmat cov (concat_f xs ys) (concat_t t s)) (kvec mu (concat_f xs ys) (concat_t t s)) =
  (gaussian_log_density (kmat cov xs t) (kvec mu xs t) + predicted_log_density cov mu gp ys s)%R.
Proof.
move=> L [h1 [h2 h3]]; rewrite (kmat_concat cov_sym) kvec_concat => pM.
rewrite density_block //; congr (_ + _).
have [pA _] := pd_block pM; have Ku := pd_unit pA.
have EB : cov_mx cov (as_measurement (X:=X) \o xs) (as_measurement (X:=X) \o ys) = cov_mx cov xs ys.
  by apply: eq_cov_mx => i j; rewrite /= h1.
have EK : kmat cov ys s = cov_mx cov ys ys + diag (m_var s).
  by rewrite /kmat; congr (_ + _); apply: eq_cov_mx => i j; rewrite /= h2.
have Ev : kvec mu ys s = m_mean s - mean_v mu ys by rewrite /kvec; congr (_ - _); apply: eq_mean_v => i /=.
rewrite /predicted_log_density (like_predict Ku L) predict_fit EB EK Ev /=; congr gaussian_log_density.
- by rewrite addrAC.
- by rewrite opprD addrA [RHS]addrAC mulmxA.
Qed.

Lemma parts_pd n m (xs : 'I_n -> feature X) t (ys : 'I_m -> feature X) s :
  agree_new cov mu xs ys -> pd (kmat cov (concat_f xs ys) (concat_t t s)) ->
  pd (kmat cov xs t) /\ pd (j_cov (predict_joint cov mu (fit cov mu xs t) ys) + diag (m_var s)).
Proof.
move=> [h1 [h2 h3]]; rewrite (kmat_concat cov_sym) => /pd_block [pA [_ pS]]; split; first exact: pA.
have EB : cov_mx cov (as_measurement (X:=X) \o xs) (as_measurement (X:=X) \o ys) = cov_mx cov xs ys.
  by apply: eq_cov_mx => i j; rewrite /= h1.
have EK : kmat cov ys s = cov_mx cov ys ys + diag (m_var s).
  by rewrite /kmat; congr (_ + _); apply: eq_cov_mx => i j; rewrite /= h2.
by move: pS; rewrite EB EK predict_fit /= addrAC.
Qed.

Lemma chain_all (bs : seq (batch R_fieldType X)) : forall n (gp : gp_fit R_fieldType X n) xs t,
  (forall x y, cov (as_measurement x) (as_measurement y) = cov x y) -> (forall x, mu (as_measurement x) = mu x) ->
  like_fit cov mu gp xs t ->
  (let d := concat_all xs t bs in pd (kmat cov (projT2 d).1 (projT2 d).2)) ->
  prior_log_density cov mu (concat_all xs t bs) =
  (gaussian_log_density (kmat cov xs t) (kvec mu xs t) + one_after_another cov mu gp bs)%R.
Proof.
elim: bs => [|[m [ys s]] bs IH] n gp xs t hc hm L H.
- by rewrite /= addr0.
have hp := pd_prefix cov_sym (bs := bs) (xs := concat_f xs ys) (t := concat_t t s) H.
have L' : like_fit cov mu (update cov mu gp ys s) (concat_f xs ys) (concat_t t s).
  by apply: update_like => //; exact: pd_unit.
rewrite [LHS](IH _ _ _ _ hc hm L' H) (chain_like L) //.
by rewrite /= addrA.
Qed.
End Chain.
