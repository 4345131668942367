From Coq Require Import Reals Lra Psatz.
From Verif Require Import Base BaseProofs ExtRealModel DistanceModel.
Local Open Scope R_scope.

Lemma Rltb_true x y : Rltb x y = true <-> x < y.
Proof. unfold Rltb; destruct (Rlt_dec x y); split; congruence. Qed.
Lemma Rltb_false x y : Rltb x y = false <-> y <= x.
Proof. unfold Rltb; destruct (Rlt_dec x y); split; try congruence; lra. Qed.
Lemma Rleb_true x y : Rleb x y = true <-> x <= y.
Proof. unfold Rleb; destruct (Rle_dec x y); split; congruence. Qed.
Lemma Rleb_false x y : Rleb x y = false <-> y < x.
Proof. unfold Rleb; destruct (Rle_dec x y); split; try congruence; lra. Qed.
Lemma Reqb_true x y : Reqb x y = true <-> x = y.
Proof. unfold Reqb; destruct (Req_EM_T x y); split; congruence. Qed.
Lemma Reqb_false x y : Reqb x y = false <-> x <> y.
Proof. unfold Reqb; destruct (Req_EM_T x y); split; congruence. Qed.

(* ---- products of vectors ---- *)
Lemma sp_comm x : forall y, sum_products x y = sum_products y x.
Proof. induction x as [|a x IH]; intros [|b y]; simpl; auto. rewrite IH; ring. Qed.
Lemma sp_self_ge0 x : 0 <= sum_products x x.
Proof. induction x; simpl; nra. Qed.
Lemma sp_self_0 x : sum_products x x = 0 <-> Forall (fun a => a = 0) x.
Proof.
  induction x as [|a x IH]; simpl; split; auto.
  - intros H; pose proof (sp_self_ge0 x); assert (a * a = 0) by nra.
    constructor; [nra | apply IH; nra].
  - intros H; inversion H; subst. rewrite (proj2 IH) by auto; ring.
Qed.
Lemma differences_length x y : length x = length y -> length (differences x y) = length x.
Proof. revert y; induction x; intros [|b y]; simpl; intros; try discriminate; auto. Qed.
Lemma sp_differences x : forall y, length x = length y ->
  sum_products (differences x y) (differences x y) =
  sum_products x x + sum_products y y - 2 * sum_products x y.
Proof.
  induction x as [|a x IH]; intros [|b y] H; simpl in *; try discriminate; [ring|].
  rewrite IH by lia. ring.
Qed.
Lemma differences_sym x y : length x = length y ->
  sum_products (differences x y) (differences x y) = sum_products (differences y x) (differences y x).
Proof. intros H. rewrite !sp_differences, (sp_comm y x) by auto. ring. Qed.
Lemma differences_0 x : forall y, length x = length y ->
  Forall (fun a => a = 0) (differences x y) <-> x = y.
Proof.
  induction x as [|a x IH]; intros [|b y] H; simpl in *; try discriminate; [split; auto|].
  rewrite Forall_cons_iff, IH by lia.
  split; [intros [h ->]; f_equal; lra | intros E; injection E; intros; subst; split; auto; lra].
Qed.

(* Cauchy and Schwarz *)
Lemma cauchy_schwarz x : forall y, length x = length y ->
  (sum_products x y) ^ 2 <= sum_products x x * sum_products y y.
Proof.
  intros y H.
  assert (Q : forall t, 0 <= sum_products x x + 2 * t * sum_products x y + t * t * sum_products y y).
  { intros t. revert y H. induction x as [|a x IH]; intros [|b y] H; simpl in *; try discriminate; [lra|].
    specialize (IH y ltac:(lia)). pose proof (Rle_0_sqr (a + t * b)) as S. unfold Rsqr in S. nra. }
  pose proof (sp_self_ge0 x). pose proof (sp_self_ge0 y).
  destruct (Req_dec (sum_products y y) 0) as [Z|Z].
  - assert (sum_products x y = 0).
    { destruct (Req_dec (sum_products x y) 0) as [|N]; auto. exfalso.
      specialize (Q (- (sum_products x x + 1) / (2 * sum_products x y))). rewrite Z in Q.
      replace (2 * (- (sum_products x x + 1) / (2 * sum_products x y)) * sum_products x y)
        with (- (sum_products x x + 1)) in Q by (field; auto). lra. }
    rewrite Z, H2. lra.
  - specialize (Q (- sum_products x y / sum_products y y)).
    assert (P : 0 < sum_products y y) by lra.
    apply (Rmult_le_compat_r (sum_products y y)) in Q; [|lra].
    replace ((sum_products x x + 2 * (- sum_products x y / sum_products y y) * sum_products x y +
      - sum_products x y / sum_products y y * (- sum_products x y / sum_products y y) * sum_products y y) * sum_products y y)
      with (sum_products x x * sum_products y y - (sum_products x y) ^ 2) in Q by (field; lra). lra.
Qed.
Lemma norm_ge0 x : 0 <= norm x.
Proof. apply sqrt_pos. Qed.
Lemma norm_sq x : norm x * norm x = sum_products x x.
Proof. apply sqrt_sqrt, sp_self_ge0. Qed.
Lemma sp_bound x y : length x = length y -> Rabs (sum_products x y) <= norm x * norm y.
Proof.
  intros H. pose proof (cauchy_schwarz x y H) as C. pose proof (norm_ge0 x). pose proof (norm_ge0 y).
  rewrite <- (norm_sq x), <- (norm_sq y) in C.
  apply Rsqr_incr_0_var; [|nra]. rewrite <- Rsqr_abs. unfold Rsqr. nra.
Qed.
Lemma norm_0 x : norm x = 0 <-> Forall (fun a => a = 0) x.
Proof.
  rewrite <- sp_self_0. split; intros H.
  - rewrite <- norm_sq, H. ring.
  - unfold norm. rewrite H. apply sqrt_0.
Qed.
Lemma differences_split x : forall y z, length x = length y -> length y = length z ->
  sum_products (differences x z) (differences x z) =
  sum_products (differences x y) (differences x y) + sum_products (differences y z) (differences y z)
  + 2 * sum_products (differences x y) (differences y z).
Proof.
  induction x as [|a x IH]; intros [|b y] [|c z] H H'; simpl in *; try discriminate; [ring|].
  rewrite (IH y z) by lia. ring.
Qed.
Lemma norm_triangle x y z : length x = length y -> length y = length z ->
  norm (differences x z) <= norm (differences x y) + norm (differences y z).
Proof.
  intros H H'. pose proof (norm_ge0 (differences x y)). pose proof (norm_ge0 (differences y z)).
  apply Rsqr_incr_0_var; [|lra]. unfold Rsqr. rewrite norm_sq, (differences_split x y z), <- !norm_sq by auto.
  assert (L : length (differences x y) = length (differences y z)) by (rewrite !differences_length by auto; auto).
  pose proof (sp_bound _ _ L). pose proof (Rle_abs (sum_products (differences x y) (differences y z))). nra.
Qed.

Lemma euclidean_ok x y : length x = length y -> euclidean_distance x y = Ok (XFin (norm (differences x y))).
Proof. intros H. unfold euclidean_distance, minus, assert_then. rewrite H, Nat.eqb_refl. auto. Qed.
Lemma euclidean_abort x y : length x <> length y -> euclidean_distance x y = Abort.
Proof. intros H. unfold euclidean_distance, minus, assert_then. apply Nat.eqb_neq in H. rewrite H. auto. Qed.

(* ---- angles ---- *)
Lemma norm_pos x : Exists (fun a => a <> 0) x -> 0 < norm x.
Proof.
  intros H. destruct (norm_ge0 x) as [|E]; auto. exfalso. symmetry in E. apply norm_0 in E.
  apply Exists_exists in H as [a [I N]]. rewrite Forall_forall in E. auto.
Qed.
Lemma cosine_bound x y : length x = length y -> 0 < norm x -> 0 < norm y ->
  -1 <= sum_products x y / (norm x * norm y) <= 1.
Proof.
  intros H hx hy. pose proof (sp_bound x y H) as B. assert (P : 0 < norm x * norm y) by nra.
  assert (B1 := Rle_abs (sum_products x y)). assert (B2 := Rle_abs (- sum_products x y)). rewrite Rabs_Ropp in B2. split.
  - apply (Rmult_le_reg_r (norm x * norm y)); auto. unfold Rdiv. rewrite Rmult_assoc, Rinv_l; nra.
  - apply (Rmult_le_reg_r (norm x * norm y)); auto. unfold Rdiv. rewrite Rmult_assoc, Rinv_l; nra.
Qed.
Lemma angular_eq x y : length x = length y -> 0 < norm x -> 0 < norm y ->
  let c := sum_products x y / (norm x * norm y) in
  angular_distance x y = Ok (XFin (if Rltb (1 - EPSILON) c then 0 else if Rltb c (-1 + EPSILON) then PI else acos c)).
Proof.
  intros H hx hy c. pose proof (cosine_bound x y H hx hy) as B.
  unfold angular_distance, dot, assert_then. rewrite H, Nat.eqb_refl. simpl.
  assert (N : norm x * norm y <> 0) by nra. apply Reqb_false in N. rewrite N. fold c. simpl.
  destruct (Rltb (1 - EPSILON) c); auto. destruct (Rltb c (-1 + EPSILON)); auto.
  rewrite !(proj2 (Rleb_true _ _)) by (unfold c; lra). auto.
Qed.
Lemma angular_zero x y : length x = length y -> norm x = 0 \/ norm y = 0 -> angular_distance x y = Ok XNaN.
Proof.
  intros H Z. pose proof (sp_bound x y H) as B.
  assert (P : norm x * norm y = 0) by (destruct Z as [-> | ->]; ring). rewrite P in B.
  assert (S : sum_products x y = 0).
  { pose proof (Rabs_pos (sum_products x y)). destruct (Req_dec (sum_products x y) 0) as [|Q]; auto. apply Rabs_pos_lt in Q. lra. }
  unfold angular_distance, dot, assert_then. rewrite H, Nat.eqb_refl. simpl.
  rewrite P, S, (proj2 (Reqb_true 0 0)) by auto. simpl. auto.
Qed.

(* ---- the matrix of distances ---- *)
Lemma angular_sym x y : length x = length y -> 0 < norm x -> 0 < norm y -> angular_distance x y = angular_distance y x.
Proof. intros. rewrite !angular_eq by auto. rewrite (sp_comm y x), (Rmult_comm (norm y)). auto. Qed.
Lemma angular_self x : 0 < norm x -> angular_distance x x = Ok (XFin 0).
Proof.
  intros H. rewrite angular_eq, <- norm_sq by auto. replace (norm x * norm x / (norm x * norm x)) with 1 by (field; lra).
  rewrite (proj2 (Rltb_true _ _)); auto. unfold EPSILON.
  assert (0 < / 10 ^ 16) by (apply Rinv_0_lt_compat, pow_lt; lra). lra.
Qed.
Lemma foldM_seq_S {S} (f : S -> nat -> outcome S) k m s :
  foldM f (seq k (Datatypes.S m)) s = (s' <- f s k ;; foldM f (seq (Datatypes.S k) m) s').
Proof. reflexivity. Qed.
Section Matrix.
Context {X V : Type}.
Variable metric : X -> X -> outcome V.
Variable xs : list X.
Lemma read_cons_same (D : @entries V) i j d : read (((i, j), d) :: D) i j = Some d.
Proof. unfold read. simpl. rewrite !Nat.eqb_refl. auto. Qed.
Lemma read_cons_other (D : @entries V) a b i j d : (a, b) <> (i, j) -> read (((a, b), d) :: D) i j = read D i j.
Proof.
  intros N. unfold read. simpl. destruct (Nat.eqb_spec a i), (Nat.eqb_spec b j); simpl; auto. subst. congruence.
Qed.
(* the value expected at (i, j) once the pairs of [done] are computed *)
Definition table (D : @entries V) (done : nat -> nat -> Prop) : Prop :=
  forall i j, (done (Nat.max i j) (Nat.min i j) ->
                 exists x y d, nth_error xs (Nat.max i j) = Some x /\ nth_error xs (Nat.min i j) = Some y /\
                   metric x y = Ok d /\ read D i j = Some d) /\
              (~ done (Nat.max i j) (Nat.min i j) -> read D i j = None).
Lemma step_table D done i j D' : (j <= i)%nat -> table D done -> distance_step metric xs i D j = Ok D' ->
  table D' (fun a b => done a b \/ (a = i /\ b = j)).
Proof.
  intros L T E. unfold distance_step in E.
  destruct (nth_error xs i) as [x|] eqn:Ex; [|discriminate].
  destruct (nth_error xs j) as [y|] eqn:Ey; [|discriminate]. simpl in E.
  destruct (metric x y) as [d| | |] eqn:Em; try discriminate. simpl in E. injection E as <-.
  intros a b. destruct (T a b) as [T1 T2].
  destruct (Nat.eq_dec (Nat.max a b) i) as [Ea|Ea]; [destruct (Nat.eq_dec (Nat.min a b) j) as [Eb|Eb]|].
  - split; [|intros N; exfalso; apply N; auto]. intros _. exists x, y, d. rewrite Ea, Eb. repeat split; auto.
    destruct (Nat.eq_dec a j) as [->|N1].
    + assert (b = i) by lia. subst b. apply read_cons_same.
    + assert (a = i /\ b = j) as [-> ->] by lia. rewrite read_cons_other by congruence. apply read_cons_same.
  - rewrite !read_cons_other by (intros E; injection E; intros; subst; lia). split.
    + intros [H|[H1 H2]]; [auto|lia].
    + intros N; apply T2; tauto.
  - rewrite !read_cons_other by (intros E; injection E; intros; subst; lia). split.
    + intros [H|[H1 H2]]; [auto|lia].
    + intros N; apply T2; tauto.
Qed.
Lemma table_ext D (p q : nat -> nat -> Prop) : (forall a b, p a b <-> q a b) -> table D p -> table D q.
Proof. intros E T a b. destruct (T a b). split; rewrite <- E; auto. Qed.
Lemma row_table i m : forall k D done D', (k + m <= S i)%nat -> table D done ->
  foldM (distance_step metric xs i) (seq k m) D = Ok D' ->
  table D' (fun a b => done a b \/ (a = i /\ (k <= b < k + m)%nat)).
Proof.
  induction m as [|m IH]; simpl; intros k D done D' L T E.
  - injection E as <-. eapply table_ext; [|exact T]. intros a b; split; [auto|intros [H|H]; [auto|lia]].
  - destruct (distance_step metric xs i D k) as [D1| | |] eqn:E1; try discriminate. simpl in E.
    eapply table_ext; [|eapply (IH (S k)); [lia| |exact E]; eapply step_table; [|exact T|exact E1]; lia].
    intros a b; split; [intros [[H|H]|H]; auto; right; lia | intros [H|[H1 H2]]; auto].
    destruct (Nat.eq_dec b k); [left; right; auto|right; lia].
Qed.
Lemma rows_table m : forall k D done D', table D done ->
  foldM (fun D i => foldM (distance_step metric xs i) (seq 0 (S i)) D) (seq k m) D = Ok D' ->
  table D' (fun a b => done a b \/ ((b <= a)%nat /\ (k <= a < k + m)%nat)).
Proof.
  induction m as [|m IH]; intros k D done D' T E.
  - cbn [seq foldM] in E. injection E as <-. eapply table_ext; [|exact T]. intros a b; split; [auto|intros [H|H]; [auto|lia]].
  - rewrite foldM_seq_S in E.
    destruct (foldM (distance_step metric xs k) (seq 0 (S k)) D) as [D1| | |] eqn:E1; try discriminate.
    change (bind (Ok D1)) with (fun k : @entries V -> outcome (@entries V) => k D1) in E. cbv beta in E.
    eapply table_ext; [|eapply (IH (S k)); [|exact E]; eapply row_table; [|exact T|exact E1]; lia].
    intros a b; split; [intros [[H|H]|H]; auto; right; lia | intros [H|[H1 H2]]; auto].
    destruct (Nat.eq_dec a k); [left; right; lia|right; lia].
Qed.
Lemma distance_matrix_table D : distance_matrix metric xs = Ok D ->
  table D (fun a b => (b <= a)%nat /\ (a < length xs)%nat).
Proof.
  intros E. unfold distance_matrix in E.
  eapply table_ext; [|eapply (rows_table (length xs) 0 [] (fun _ _ => False)); [|exact E]].
  - intros a b; split; [intros [[]|H]; lia|intros H; right; lia].
  - intros i j; split; [tauto|auto].
Qed.
(* no failure when every distance of a pair is computed *)
Lemma distance_matrix_ok : (forall i j x y, (j <= i)%nat -> nth_error xs i = Some x -> nth_error xs j = Some y ->
    is_ok (metric x y) = true) -> exists D, distance_matrix metric xs = Ok D.
Proof.
  intros H. unfold distance_matrix.
  assert (R : forall i m k D, (i < length xs)%nat -> (k + m <= S i)%nat ->
             exists D', foldM (distance_step metric xs i) (seq k m) D = Ok D').
  { intros i m; induction m as [|m IH]; intros k D Li L; cbn [seq foldM]; [eauto|].
    unfold distance_step at 1.
    destruct (nth_error xs i) as [x|] eqn:Ex; [|apply nth_error_None in Ex; lia].
    destruct (nth_error xs k) as [y|] eqn:Ey; [|apply nth_error_None in Ey; lia].
    cbn [of_option bind]. pose proof (H i k x y ltac:(lia) Ex Ey) as O.
    destruct (metric x y); try discriminate. cbn [bind]. apply IH; lia. }
  assert (Q : forall m k D, (k + m <= length xs)%nat ->
     exists D', foldM (fun D i => foldM (distance_step metric xs i) (seq 0 (S i)) D) (seq k m) D = Ok D').
  { induction m as [|m IH]; intros k D L; [simpl; eauto|].
    destruct (R k (S k) 0%nat D) as [D1 E1]; [lia|lia|].
    rewrite foldM_seq_S, E1. apply IH. lia. }
  apply Q. lia.
Qed.
End Matrix.
