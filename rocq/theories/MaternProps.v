(* C67: whether the Newton solver for Matern length scales reproduces the requested process noise. *)
From Coq Require Import Reals Lra Psatz.
From Verif Require Import Base ExtRealModel RadialModel RadialSpec RadialProofs MaternProofs MaternCycle MaternCycle2
  MaternConverge MaternConverge2.
Local Open Scope R_scope.

(* requests up to 1/10000 of the prior standard deviation, which a ratio of 10^7 can reach, are reproduced: the
   relative error is at most 2e-12 *)
Theorem C67_small_requests (s : shape) (ref prior inc : R) : s = Matern32 \/ s = Matern52 -> 0 < ref ->
  0 < inc <= prior / 10 ^ 4 -> noise_after s ref (10 ^ 7 * ref) prior < inc ->
  exists ell, derive_of s (XFin ref) (XFin prior) (XFin inc) = Ok (XFin ell) /\
    Rabs (noise_after s ref ell prior - inc) <= 2 / 10 ^ 12 * inc.
Proof. intros Hs Hr [Hi Hp] H. exact (converges s ref prior inc Hs Hr Hi Hp H). Qed.
Print Assumptions C67_small_requests.
(* a request of 1/10000 of the prior is reached *)
Example C67_small_requests_meets : 0 < 1 <= 10 ^ 4 / 10 ^ 4 /\ noise_after Matern32 5 (10 ^ 7 * 5) (10 ^ 4) < 1.
Proof.
  split; [simpl; lra|]. assert (P : 0 < 10 ^ 7) by (apply pow_lt; lra).
  rewrite (scaled_noise Matern32 5 (10 ^ 4) ltac:(lra) (10 ^ 7) P).
  rewrite (noise_formula Matern32 (10 ^ 4) 1) by (simpl; lra).
  pose proof (small_noise Matern32 (or_introl eq_refl) (10 ^ 7) ltac:(simpl; lra)) as S.
  assert (Q : sqrt (1 - rho Matern32 (1 / 10 ^ 7) * rho Matern32 (1 / 10 ^ 7)) <= 1 / 100000).
  { rewrite <- (sqrt_pow2 (1 / 100000)) by lra. apply sqrt_le_1_alt. eapply Rle_trans; [exact S|].
    pose proof (kk_bounds Matern32) as K. assert (kk Matern32 / 10 ^ 7 <= 1 / 1000000) by (simpl pow; lra).
    assert (0 <= kk Matern32 / 10 ^ 7) by (simpl pow; lra). set (a := kk Matern32 / 10 ^ 7) in *. clearbody a. nra. }
  simpl pow in *. lra.
Qed.

(* finding: not every request is reproduced. For both Matern functions, every reference distance and every prior
   there is a request between half of the prior and the prior, met by a length scale of less than 10 reference
   distances, for which the result is more than 100000 reference distances and its noise is less than a thousandth
   of what was requested: the iteration jumps to the middle of the allowed ratios, is halved 20 times, jumps back
   over the solution into the flat part and starts again, until 50 steps are done. *)
Theorem C67_reproduces_refuted (s : shape) (ref prior : R) : s = Matern32 \/ s = Matern52 -> 0 < ref -> 0 < prior ->
  exists inc ell right, prior / 2 < inc < prior /\
    0 < right < 10 * ref /\ noise_after s ref right prior = inc /\
    derive_of s (XFin ref) (XFin prior) (XFin inc) = Ok (XFin ell) /\
    10 ^ 5 * ref < ell /\ noise_after s ref ell prior < inc / 1000.
Proof. intros Hs Hr Hp. exact (cycle s prior Hs Hp ref Hr). Qed.
Print Assumptions C67_reproduces_refuted.
