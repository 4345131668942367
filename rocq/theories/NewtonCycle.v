(* A safeguarded Newton iteration that does not converge: a flat part sends the iterate half way to the upper
   bound, steep steps halve it until the start of the flat part is hit again. *)
From Coq Require Import Reals Lra Psatz Lia.
From Verif Require Import RadialSpec.
Local Open Scope R_scope.

Section Cycle.
Variables (T : R) (f slope : R -> R) (lo hi w start bottom : R).
Hypothesis Hlo : lo = / 10 ^ 7.
Hypothesis Hhi : hi = 10 ^ 7.
Hypothesis Hbottom : bottom = hi / 2 ^ 21.
(* the flat part: a step goes beyond the upper bound *)
Hypothesis Flat : forall x, lo <= x <= 6 / 100 -> 0 < slope x /\ hi * slope x <= f x - T /\ 1 / 10 <= f x - T.
(* the steep part: a step goes below the lower bound *)
Hypothesis Steep : forall x, 9 <= x <= hi -> 0 < slope x /\ x * slope x <= T - f x /\ 1 / 10 <= T - f x.
(* the bottom of the halvings *)
Hypothesis Hit : forall x, bottom <= x <= bottom + 2 * lo ->
  lo < x - (T - f x) / slope x <= 6 / 100 /\ 1 / 10 <= T - f x.
Hypothesis Start : lo <= start <= 6 / 100.

Local Notation step := (safeguarded_step T f slope lo hi).
Local Notation x := (safeguarded_iterate T f slope lo hi start).

Lemma lo_val : lo = 1 / 10000000. Proof. rewrite Hlo. simpl. field. Qed.
Lemma hi_val : hi = 10000000. Proof. rewrite Hhi. simpl. ring. Qed.

Lemma flat_step g : lo <= g <= 6 / 100 -> step g = (g + hi) / 2.
Proof.
  intros H. destruct (Flat g H) as (S & A & B). unfold safeguarded_step. pose proof lo_val. pose proof hi_val.
  assert (Z : hi <= g - (T - f g) / slope g).
  { assert (hi <= (f g - T) / slope g) by (apply (Rmult_le_reg_r (slope g)); [auto|unfold Rdiv; rewrite Rmult_assoc, Rinv_l; lra]).
    replace (g - (T - f g) / slope g) with (g + (f g - T) / slope g) by (field; lra). lra. }
  destruct (Rle_dec _ lo); [lra|]. destruct (Rle_dec hi _); [auto|lra].
Qed.
Lemma steep_step g : 9 <= g <= hi -> step g = (g + lo) / 2.
Proof.
  intros H. destruct (Steep g H) as (S & A & B). unfold safeguarded_step. pose proof lo_val.
  assert (Z : g <= (T - f g) / slope g) by (apply (Rmult_le_reg_r (slope g)); [auto|unfold Rdiv; rewrite Rmult_assoc, Rinv_l; lra]).
  destruct (Rle_dec _ lo); [auto|lra].
Qed.
Lemma hit_step g : bottom <= g <= bottom + 2 * lo -> lo <= step g <= 6 / 100.
Proof.
  intros H. destruct (Hit g H) as (A & B). unfold safeguarded_step. pose proof hi_val.
  destruct (Rle_dec _ lo); [lra|]. destruct (Rle_dec hi _); [lra|]. lra.
Qed.

(* after a flat step at time m *)
Lemma halvings m k : lo <= x m <= 6 / 100 -> (k <= 20)%nat ->
  hi / 2 ^ (S k) <= x (m + S k)%nat <= (hi + 6 / 100) / 2 ^ (S k) + lo.
Proof.
  intros H. induction k as [|k IH]; intros Hk.
  - rewrite Nat.add_comm. cbn [Nat.add safeguarded_iterate pow]. rewrite (flat_step _ H). pose proof lo_val. pose proof hi_val. lra.
  - specialize (IH ltac:(lia)). replace (m + S (S k))%nat with (S (m + S k)) by lia. cbn [safeguarded_iterate].
    set (y := x (m + S k)%nat) in *. pose proof lo_val as L. pose proof hi_val as U.
    assert (P : 0 < 2 ^ S k) by (apply pow_lt; lra).
    assert (P20 : 2 ^ S k <= 2 ^ 20) by (apply Rle_pow; [lra|lia]).
    assert (P1 : 2 <= 2 ^ S k) by (replace 2 with (2 ^ 1) at 1 by ring; apply Rle_pow; [lra|lia]).
    assert (B1 : 9 <= hi / 2 ^ S k).
    { apply (Rmult_le_reg_r (2 ^ S k)); auto. unfold Rdiv. rewrite Rmult_assoc, Rinv_l by lra. simpl in P20. simpl. lra. }
    assert (B2 : (hi + 6 / 100) / 2 ^ S k <= (hi + 6 / 100) / 2).
    { unfold Rdiv. apply Rmult_le_compat_l; [lra|]. apply Rinv_le_contravar; lra. }
    rewrite (steep_step y) by lra. change (2 ^ S (S k)) with (2 * 2 ^ S k).
    replace (hi / (2 * 2 ^ S k)) with (hi / 2 ^ S k / 2) by (field; lra).
    replace ((hi + 6 / 100) / (2 * 2 ^ S k)) with ((hi + 6 / 100) / 2 ^ S k / 2) by (field; lra). lra.
Qed.
Lemma at_bottom m : lo <= x m <= 6 / 100 -> bottom <= x (m + 21)%nat <= bottom + 2 * lo.
Proof.
  intros H. pose proof (halvings m 20 H ltac:(lia)) as B. rewrite Hbottom. pose proof lo_val. pose proof hi_val.
  assert (hi / 2 ^ 21 + 6 / 100 / 2 ^ 21 = (hi + 6 / 100) / 2 ^ 21) by (field; apply pow_nonzero; lra).
  assert (6 / 100 / 2 ^ 21 <= lo) by (simpl; lra). lra.
Qed.
Lemma round m : lo <= x m <= 6 / 100 -> lo <= x (m + 22)%nat <= 6 / 100.
Proof.
  intros H. replace (m + 22)%nat with (S (m + 21)) by lia. cbn [safeguarded_iterate]. apply hit_step, at_bottom; auto.
Qed.
Lemma large_error m k : lo <= x m <= 6 / 100 -> (k <= 21)%nat -> 1 / 10 <= Rabs (T - f (x (m + k)%nat)).
Proof.
  intros H Hk. destruct k as [|k].
  - rewrite Nat.add_0_r. destruct (Flat _ H) as (_ & _ & A). rewrite Rabs_minus_sym, Rabs_right; lra.
  - destruct (Nat.eq_dec k 20) as [->|N].
    + destruct (Hit _ (at_bottom m H)) as (_ & A). rewrite Rabs_right; lra.
    + pose proof (halvings m k H ltac:(lia)) as B. pose proof lo_val as L. pose proof hi_val as U.
      assert (P : 0 < 2 ^ S k) by (apply pow_lt; lra).
      assert (P20 : 2 ^ S k <= 2 ^ 20) by (apply Rle_pow; [lra|lia]).
      assert (P1 : 2 <= 2 ^ S k) by (replace 2 with (2 ^ 1) at 1 by ring; apply Rle_pow; [lra|lia]).
      assert (B1 : 9 <= hi / 2 ^ S k).
      { apply (Rmult_le_reg_r (2 ^ S k)); auto. unfold Rdiv. rewrite Rmult_assoc, Rinv_l by lra. simpl in P20. simpl. lra. }
      assert (B2 : (hi + 6 / 100) / 2 ^ S k <= (hi + 6 / 100) / 2).
      { unfold Rdiv. apply Rmult_le_compat_l; [lra|]. apply Rinv_le_contravar; lra. }
      destruct (Steep (x (m + S k)%nat) ltac:(lra)) as (_ & _ & A). rewrite Rabs_right; lra.
Qed.
Lemma cycle_result r : newton_result T f slope lo hi (/ 10 ^ 12) start 50 r -> 156250 <= r <= 156251.
Proof.
  intros [k (Hk & -> & _ & E)].
  assert (S0 : lo <= x 0%nat <= 6 / 100) by exact Start.
  pose proof (round 0 S0) as S1. pose proof (round _ S1) as S2. cbn [Nat.add] in S1, S2.
  assert (tol : / 10 ^ 12 < 1 / 10) by (simpl; lra).
  assert (K : k = 50%nat).
  { destruct E as [E|E]; auto. exfalso.
    assert (1 / 10 <= Rabs (T - f (x k))); [|lra].
    destruct (Compare_dec.le_lt_dec k 21) as [A|A]; [exact (large_error 0 k S0 A)|].
    destruct (Compare_dec.le_lt_dec k 43) as [B|B].
    - replace k with (22 + (k - 22))%nat by lia. apply large_error; [auto|lia].
    - replace k with (44 + (k - 44))%nat by lia. apply large_error; [auto|lia]. }
  rewrite K. pose proof (halvings 44 5 S2 ltac:(lia)) as B. cbn [Nat.add] in B. pose proof lo_val. pose proof hi_val.
  simpl pow in B. lra.
Qed.
End Cycle.
