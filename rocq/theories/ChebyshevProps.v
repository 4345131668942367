(* C56: Chebyshev polynomials. *)
From Coq Require Import Reals Lra.
From Verif Require Import Base BaseProofs ChebyshevModel ChebyshevProofs.
Local Open Scope R_scope.

(* on [-1, 1]: T_n(cos t) = cos(n t) *)
Theorem C56_first_kind (n : nat) (ts : list R) :
  chebyshev_t (Z.of_nat n) (map cos ts) = Ok (map (fun t => cos (INR n * t)) ts).
Proof. rewrite chebyshev_t_map, map_map. f_equal. apply map_ext. intros t. apply T_cos. Qed.
Print Assumptions C56_first_kind.

(* U_n(cos t) sin t = sin((n + 1) t) *)
Theorem C56_second_kind (n : nat) (ts : list R) : exists us,
  chebyshev_u (Z.of_nat n) (map cos ts) = Ok us /\ length us = length ts /\
  forall i t u, nth_error ts i = Some t -> nth_error us i = Some u -> u * sin t = sin ((INR n + 1) * t).
Proof.
  rewrite chebyshev_u_map, map_map. eexists. split; [reflexivity|]. rewrite map_length. split; auto.
  intros i t u E. rewrite nth_error_map', E. simpl. intros [= <-]. apply U_sin.
Qed.
Print Assumptions C56_second_kind.

(* every argument, with s the square root of x^2 - 1 where it is real *)
Theorem C56_closed_forms (n : nat) (x s : R) : s ^ 2 = x ^ 2 - 1 -> exists t u,
  chebyshev_t (Z.of_nat n) [x] = Ok [t] /\ chebyshev_u (Z.of_nat n) [x] = Ok [u] /\
  t = ((x + s) ^ n + (x - s) ^ n) / 2 /\ u * (2 * s) = (x + s) ^ (n + 1) - (x - s) ^ (n + 1).
Proof.
  intros H. exists (T n x), (U n x). rewrite chebyshev_t_map, chebyshev_u_map. repeat split; auto.
  - pose proof (T_power n x s H). lra.
  - rewrite <- (U_power n x s H). ring.
Qed.
Print Assumptions C56_closed_forms.
Example C56_closed_forms_meets : (sqrt 3) ^ 2 = 2 ^ 2 - 1.
Proof. simpl. rewrite Rmult_1_r, sqrt_sqrt; lra. Qed.

(* the kinds are related by the derivative: T_(n+1)' = (n + 1) U_n *)
Theorem C56_derivative (n : nat) : exists t u : R -> R,
  (forall xs, chebyshev_t (Z.of_nat (S n)) xs = Ok (map t xs)) /\
  (forall xs, chebyshev_u (Z.of_nat n) xs = Ok (map u xs)) /\
  forall x, derivable_pt_lim t x (INR (S n) * u x).
Proof.
  exists (T (S n)), (U n). split; [intros; apply chebyshev_t_map|split; [intros; apply chebyshev_u_map|]].
  apply T_deriv.
Qed.
Print Assumptions C56_derivative.

(* the columns of the basis matrices are the polynomials of degrees 0, ..., n_max *)
Theorem C56_basis (n_max : nat) (x : list R) : exists ts us,
  chebyshev_t_phi (Z.of_nat n_max) x = Ok (map Some ts) /\ mapM (fun k => chebyshev_t (Z.of_nat k) x) (seq 0 (n_max + 1)) = Ok ts /\
  chebyshev_u_phi (Z.of_nat n_max) x = Ok (map Some us) /\ mapM (fun k => chebyshev_u (Z.of_nat k) x) (seq 0 (n_max + 1)) = Ok us.
Proof.
  assert (M : forall (f : nat -> outcome (list R)) g l, (forall k, f k = Ok (g k)) -> mapM f l = Ok (map g l)).
  { intros f g l H. induction l as [|a l IH]; auto. cbn [mapM map]. rewrite H, IH. auto. }
  exists (map (fun k => map (T k) x) (seq 0 (n_max + 1))), (map (fun k => map (U k) x) (seq 0 (n_max + 1))).
  rewrite !map_map. replace (n_max + 1)%nat with (S n_max) by lia. repeat split.
  - apply (phi_map T (cheb_rec _)); [apply t0_map|apply t1_map|apply t2_map].
  - apply M. intros. apply chebyshev_t_map.
  - apply (phi_map U (cheb_rec _)); [apply u0_map|apply u1_map|apply u2_map].
  - apply M. intros. apply chebyshev_u_map.
Qed.
Print Assumptions C56_basis.

Theorem C56_negative (n : Z) (x : list R) : (n < 0)%Z ->
  chebyshev_t n x = Abort /\ chebyshev_u n x = Abort /\ chebyshev_t_phi n x = Abort /\ chebyshev_u_phi n x = Abort.
Proof.
  intros H. apply Z.leb_gt in H.
  unfold chebyshev_t, chebyshev_u, chebyshev_t_phi, chebyshev_u_phi, chebyshev_phi, assert_then. rewrite H. auto.
Qed.
Print Assumptions C56_negative.

(* |T_n| is at most 1 on [-1, 1] *)
Theorem C56_bounded (n : nat) (x : list R) : Forall (fun v => -1 <= v <= 1) x ->
  exists t, chebyshev_t (Z.of_nat n) x = Ok t /\ Forall (fun v => -1 <= v <= 1) t.
Proof.
  intros H. rewrite chebyshev_t_map. eexists. split; [reflexivity|]. apply Forall_map.
  eapply Forall_impl; [|exact H]. intros v Hv. cbn beta in *. rewrite <- (cos_acos v Hv), T_cos. apply COS_bound.
Qed.
Print Assumptions C56_bounded.
Example C56_bounded_meets : Forall (fun v => -1 <= v <= 1) [1; / 2; -1].
Proof. repeat constructor; lra. Qed.
