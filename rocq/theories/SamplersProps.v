(* Properties C28 and C29 of properties.jsonl. [uniform] and [uniform_real] are the
   integer and real distributions on any engine, [f] any log probability. The fuel
   bounds the rejection loops; a result of None is "still looping". *)
From Coq Require Import Reals Lra.
From Verif Require Import Base BaseProofs StringKeyModel RandomModel ExtRealModel ExtRealProofs ParamsModel CsvModel
  SamplersModel SamplersSpec SamplersProofs.

(* one step: every walker is replaced by its own proposal, finite and scored by f,
   or stays what it was *)
Theorem C28_step : forall G (uniform : Z -> Z -> G -> Z * G) (uniform_real : G -> R * G) f,
  real_contract uniform_real ->
  forall fuel ens s a g next g', 0 < s ->
  stretch_move_step uniform uniform_real f fuel ens s a g = Some (Ok (next, g')) ->
  all_finite ens /\ Forall2 (moved f) ens next.
Proof. intros. eapply step_moved; eassumption. Qed.
Print Assumptions C28_step.

(* from two walkers in at least two splits a step always ends *)
Theorem C28_step_returns : forall G (uniform : Z -> Z -> G -> Z * G) (uniform_real : G -> R * G) f,
  int_contract uniform -> real_contract uniform_real ->
  forall fuel ens s a g n_dim, 2 <= length ens -> 2 <= s -> (Z.of_nat (length ens) < 2 ^ 64)%Z ->
  all_finite ens -> same_dimension n_dim ens ->
  exists next g', stretch_move_step uniform uniform_real f (S fuel) ens s a g = Some (Ok (next, g')).
Proof. intros. eapply step_total; eassumption. Qed.
Print Assumptions C28_step_returns.

Theorem C28_step_rejects : forall G (uniform : Z -> Z -> G -> Z * G) (uniform_real : G -> R * G) f fuel ens s a g,
  ens <> [] -> ~ all_finite ens -> stretch_move_step uniform uniform_real f fuel ens s a g = Some Abort.
Proof. exact @step_not_finite. Qed.
Print Assumptions C28_step_rejects.

(* the precondition nobody checks: no walkers, one walker, one split, no split *)
Theorem C28_step_too_few_refuted : forall G (uniform : Z -> Z -> G -> Z * G) (uniform_real : G -> R * G) f fuel ens s a g,
  all_finite ens -> ens = [] \/ s = 0 \/ s = 1 \/ length ens = 1 ->
  stretch_move_step uniform uniform_real f (S fuel) ens s a g = Some UB.
Proof.
  intros G un ur f fuel ens s a g Hf H. destruct ens as [|x ens]; [apply step_empty|].
  destruct H as [H|[->|H]]; [discriminate|apply step_zero_splits; [discriminate|exact Hf]|].
  destruct s as [|s]; [apply step_zero_splits; [discriminate|exact Hf]|].
  apply step_alone; [discriminate|exact Hf|lia|exact H].
Qed.
Print Assumptions C28_step_too_few_refuted.

(* the sampler: the initial state and one state per iteration, all with the same
   number of finite walkers, each obtained by a step from the one before *)
Theorem C28_sampler : forall G (uniform : Z -> Z -> G -> Z * G) (uniform_real : G -> R * G) f,
  int_contract uniform -> real_contract uniform_real ->
  forall fuel ens iters g states g', (Z.of_nat (length ens) < 2 ^ 64)%Z ->
  ensemble_sampler uniform uniform_real f fuel ens iters g = Some (Ok (states, g')) ->
  exists first rest, states = first :: rest /\ length rest = iters /\
    (exists extra, first = filter finite_state ens ++ extra /\
       Forall (fun s => ss_log_prob s = f (ss_params s) /\ xisfinite (ss_log_prob s) = true) extra) /\
    Forall (fun e => length e = length ens /\ all_finite e) states /\
    (consistent f ens -> Forall (consistent f) states) /\
    (forall i x y, nth_error states i = Some x -> nth_error states (S i) = Some y -> Forall2 (moved f) x y).
Proof. intros. eapply sampler_spec; eassumption. Qed.
Print Assumptions C28_sampler.

Theorem C28_sampler_returns : forall G (uniform : Z -> Z -> G -> Z * G) (uniform_real : G -> R * G) f,
  int_contract uniform -> real_contract uniform_real ->
  forall fuel ens iters g n_dim, (Z.of_nat (length ens) < 2 ^ 64)%Z -> 2 < length ens ->
  Forall (fun s => finite_state s = true) ens -> same_dimension n_dim ens ->
  exists states g', ensemble_sampler uniform uniform_real f (S fuel) ens iters g = Some (Ok (ens :: states, g')).
Proof. intros. eapply sampler_total; eassumption. Qed.
Print Assumptions C28_sampler_returns.

(* started from parameters, every log probability reported is that of the parameters *)
Theorem C28_sampler_params : forall G (uniform : Z -> Z -> G -> Z * G) (uniform_real : G -> R * G) f fuel params iters g states g',
  int_contract uniform -> real_contract uniform_real -> (Z.of_nat (length params) < 2 ^ 64)%Z ->
  ensemble_sampler_params uniform uniform_real f fuel params iters g = Some (Ok (states, g')) ->
  length states = S iters /\
  Forall (fun e => length e = length params /\ all_finite e /\ consistent f e) states.
Proof. exact @sampler_params_spec. Qed.
Print Assumptions C28_sampler_params.

(* started from a model, the first walker is the model's own parameters *)
Theorem C28_sampler_model : forall G (uniform : Z -> Z -> G -> Z * G) (uniform_real : G -> R * G) (jitter : G -> xr * G) f
  fuel (params : store) n iters g states g',
  int_contract uniform -> real_contract uniform_real -> (Z.of_nat (Nat.max n (2 * length params + 1)) < 2 ^ 64)%Z ->
  ensemble_sampler_model uniform uniform_real jitter f fuel params n iters g = Some (Ok (states, g')) ->
  exists tp, get_tunable_parameters params = Ok tp /\ length states = S iters /\
  Forall (fun e => length e = Nat.max n (2 * length params + 1) /\ all_finite e /\ consistent f e) states /\
  (forallb xisfinite (tp_values tp) = true -> xisfinite (f (tp_values tp)) = true ->
   exists first, nth_error states 0 = Some first /\ nth_error first 0 = Some (SS (tp_values tp) (f (tp_values tp)) true)).
Proof. exact @sampler_model_spec. Qed.
Print Assumptions C28_sampler_model.

Theorem C28_jitter : forall G (jitter : G -> xr * G) (params : store) n g out g',
  initial_params_from_jitter jitter params n g = Some (Ok (out, g')) ->
  exists tp, get_tunable_parameters params = Ok tp /\ length out = Nat.max n (2 * length params + 1) /\
    nth_error out 0 = Some (tp_values tp) /\ Forall (fun p => length p = length (tp_values tp)) out.
Proof. exact @jitter_spec. Qed.
Print Assumptions C28_jitter.

(* the initial state: finite walkers are kept, in order; the others are replaced by
   points of the smallest box around them *)
Theorem C28_initial_state : forall G (uniform : Z -> Z -> G -> Z * G) (uniform_real : G -> R * G) f,
  int_contract uniform -> real_contract uniform_real ->
  forall fuel ens g out g', (Z.of_nat (length ens) < 2 ^ 64)%Z ->
  ensure_finite_initial_state uniform uniform_real f fuel ens g = Some (Ok (out, g')) ->
  exists extra, out = filter finite_state ens ++ extra /\ length out = length ens /\ 2 < length (filter finite_state ens) /\
    Forall (fun s => ss_log_prob s = f (ss_params s) /\ xisfinite (ss_log_prob s) = true) extra /\
    (forall d, same_dimension d ens -> same_dimension d out) /\
    (forall lo hi, Forall (in_box lo hi) (filter finite_state ens) -> Forall (in_box lo hi) out).
Proof. intros. eapply ensure_finite_spec; eassumption. Qed.
Print Assumptions C28_initial_state.

Theorem C28_initial_state_kept : forall G (uniform : Z -> Z -> G -> Z * G) (uniform_real : G -> R * G) f fuel ens g,
  Forall (fun s => finite_state s = true) ens -> 2 < length ens ->
  ensure_finite_initial_state uniform uniform_real f fuel ens g = Some (Ok (ens, g)).
Proof. exact @ensure_finite_id. Qed.
Print Assumptions C28_initial_state_kept.

(* "at least two" finite walkers are said to be needed, but two are rejected *)
Theorem C28_two_finite_refuted : forall G (uniform : Z -> Z -> G -> Z * G) (uniform_real : G -> R * G) f fuel ens g,
  length (filter finite_state ens) <= 2 ->
  ensure_finite_initial_state uniform uniform_real f fuel ens g = Some Abort.
Proof.
  intros G un ur f fuel ens g H. unfold ensure_finite_initial_state, rassert.
  destruct (Nat.ltb_spec 2 (length (filter finite_state ens))); [lia|reflexivity].
Qed.
Print Assumptions C28_two_finite_refuted.

(* replacing the others need not end *)
Theorem C28_initial_state_diverges_refuted : forall G (uniform : Z -> Z -> G -> Z * G) (uniform_real : G -> R * G) f d ens,
  int_contract uniform -> (Z.of_nat (length ens) < 2 ^ 64)%Z -> same_dimension d ens ->
  2 < length (filter finite_state ens) < length ens -> (forall p, xisfinite (f p) = false) ->
  forall fuel g, ensure_finite_initial_state uniform uniform_real f fuel ens g = None.
Proof.
  intros G un ur f d ens Hi Hb Hd Hl Hf fuel g. unfold ensure_finite_initial_state, rassert.
  destruct (Nat.ltb_spec 2 (length (filter finite_state ens))); [|lia].
  apply (fill_loop_diverges _ _ _ _ d); try assumption; [lia|]. apply Forall_forall. intros s Hs. apply filter_In in Hs as [Hs _].
  unfold same_dimension in Hd. rewrite Forall_forall in Hd. apply Hd, Hs.
Qed.
Print Assumptions C28_initial_state_diverges_refuted.

(* a step, walker by walker: the partner comes from another split and is the moved
   one if its split was moved before; z = ((a-1)p+1)^2/a; accept or keep *)
Theorem C29_partner : forall G (uniform : Z -> Z -> G -> Z * G) (uniform_real : G -> R * G) f,
  real_contract uniform_real ->
  forall fuel ens s a g next g', 0 < s ->
  stretch_move_step uniform uniform_real f fuel ens s a g = Some (Ok (next, g')) ->
  exists first, nth_error ens 0 = Some first /\ all_finite ens /\ length next = length ens /\
  forall k xk, nth_error ens k = Some xk ->
  exists j xj p u q, j < length ens /\ j mod s <> k mod s /\
    nth_error (if j mod s <? k mod s then next else ens) j = Some xj /\ xisfinite (ss_log_prob xj) = true /\
    (0 <= p < 1)%R /\ (0 <= u < 1)%R /\
    let n_dim := length (ss_params first) in
    let z := (((a - 1) * p + 1) ^ 2 / a)%R in
    stretched n_dim z (ss_params xk) (ss_params xj) q /\
    nth_error next k =
      Some (if xltb (xlog (XFin u)) (xsub (xadd (xscale (INR n_dim - 1) (xlog (XFin z))) (f q)) (ss_log_prob xk))
               && xisfinite (f q)
            then SS q (f q) true else SS (ss_params xk) (ss_log_prob xk) false).
Proof. intros. eapply step_spec; eassumption. Qed.
Print Assumptions C29_partner.

Theorem C29_stretch_range : forall a p, (1 < a)%R -> (0 <= p < 1)%R -> (/ a <= stretch a p < a)%R.
Proof. exact stretch_range. Qed.
Print Assumptions C29_stretch_range.

(* proposals are on the line through the walker and its partner *)
Theorem C29_on_line : forall n_dim z xk xj q i vk vj, stretched n_dim z xk xj q -> i < n_dim ->
  nth_error xk i = Some (XFin vk) -> nth_error xj i = Some (XFin vj) -> vk <> vj ->
  nth_error q i = Some (XFin (vj + z * (vk - vj))).
Proof. exact stretched_line. Qed.
Print Assumptions C29_on_line.

Theorem C29_random_complement : forall G (uniform : Z -> Z -> G -> Z * G) fuel n i g out g',
  int_contract uniform -> (Z.of_nat n < 2 ^ 64)%Z ->
  random_complement uniform fuel n i g = Some (Ok (out, g')) -> out < n /\ out <> i /\ 1 < n.
Proof. exact @random_complement_spec. Qed.
Print Assumptions C29_random_complement.

(* ---- a concrete run: three walkers on a line, a flat target ---- *)
Definition ex_uniform (lo hi : Z) (g : unit) : Z * unit := (lo, g).
Definition ex_real (g : unit) : R * unit := ((/ 2)%R, g).
Definition ex_f (_ : list xr) : xr := XFin 0.
Definition ex_ens : list sampler_state := map (fun r => SS [XFin r] (XFin 0) true) [0%R; 1%R; 2%R].

Lemma ex_int : int_contract ex_uniform.
Proof. intros lo hi g H. cbn. lia. Qed.
Lemma ex_real_ok : real_contract ex_real.
Proof. intros g. cbn. lra. Qed.
Lemma ex_finite : Forall (fun s => finite_state s = true) ex_ens.
Proof. repeat constructor. Qed.

Example C28_sampler_ex : exists states g',
  ensemble_sampler ex_uniform ex_real ex_f 1 ex_ens 5 tt = Some (Ok (ex_ens :: states, g')) /\ length states = 5.
Proof.
  destruct (C28_sampler_returns _ _ _ ex_f ex_int ex_real_ok 0 ex_ens 5 tt 1 ltac:(cbn; lia) ltac:(cbn; lia) ex_finite
    ltac:(repeat constructor)) as [states [g' E]].
  exists states, g'. split; [exact E|].
  destruct (C28_sampler _ _ _ ex_f ex_int ex_real_ok 1 ex_ens 5 tt _ _ ltac:(cbn; lia) E) as [first [rest [E1 [E2 _]]]].
  injection E1 as _ <-. exact E2.
Qed.

(* the flat target accepts every proposal: log u < 0 *)
Example C29_ex : exists next g',
  stretch_move_step ex_uniform ex_real ex_f 1 ex_ens 2 2 tt = Some (Ok (next, g')) /\ length next = 3 /\
  (forall k s, nth_error next k = Some s -> ss_accepted s = true /\ ss_log_prob s = XFin 0).
Proof.
  assert (all_finite ex_ens) as Hf by (repeat constructor).
  destruct (C28_step_returns _ _ _ ex_f ex_int ex_real_ok 0 ex_ens 2 2 tt 1 ltac:(cbn; lia) ltac:(lia) ltac:(cbn; lia) Hf
    ltac:(repeat constructor)) as [next [g' E]].
  exists next, g'. split; [exact E|].
  destruct (C29_partner _ _ _ ex_f ex_real_ok 1 ex_ens 2 2%R tt _ _ ltac:(lia) E) as [first [E0 [_ [L HH]]]].
  injection E0 as <-. split; [exact L|]. intros k s Hs.
  assert (k < length ex_ens) as Hk by (rewrite <- L; apply nth_error_Some; congruence).
  destruct (nth_error ex_ens k) as [xk|] eqn:Ek; [|apply nth_error_None in Ek; lia].
  assert (ss_log_prob xk = XFin 0) as Elp.
  { apply nth_error_In in Ek. cbn in Ek. destruct Ek as [<-|[<-|[<-|[]]]]; reflexivity. }
  destruct (HH k xk Ek) as [j [xj [p [u [q [_ [_ [_ [_ [Hp [Hu [_ En]]]]]]]]]]]]. rewrite Hs in En. rewrite Elp in En.
  pose proof (stretch_range 2 p ltac:(lra) Hp) as [Hz _]. fold (stretch 2 p) in En.
  assert (xlog (XFin (stretch 2 p)) = XFin (ln (stretch 2 p))) as Ez.
  { cbn. destruct (Rltb_spec 0 (stretch 2 p)); [reflexivity|lra]. }
  rewrite Ez in En.
  match type of En with _ = Some (if ?b && _ then _ else _) => assert (b = true) as Hb end.
  { cbn. destruct (Rltb_spec 0 u) as [H0|H0].
    - cbn [xltb]. match goal with |- Rltb ?x ?y = true => destruct (Rltb_spec x y) as [_|H1] end; [reflexivity|].
      exfalso. apply H1. assert (ln u < ln 1)%R by (apply ln_increasing; lra). rewrite ln_1 in *. lra.
    - destruct (Reqb_spec u 0); [reflexivity|lra]. }
  rewrite Hb in En. injection En as ->. auto.
Qed.

Example C29_stretch_ex : stretch 2 (/ 2) = (9 / 8)%R.
Proof. unfold stretch. field. Qed.

(* three finite walkers and one that is not, with a target that is never finite *)
Example C28_diverges_ex : let ens := ex_ens ++ [SS [XFin 3] XNeg false] in
  forall fuel, ensure_finite_initial_state ex_uniform ex_real (fun _ => XNeg) fuel ens tt = None.
Proof.
  intros ens fuel. apply (C28_initial_state_diverges_refuted _ ex_uniform ex_real (fun _ => XNeg) 1); cbn.
  - exact ex_int.
  - lia.
  - repeat constructor.
  - lia.
  - reflexivity.
Qed.
