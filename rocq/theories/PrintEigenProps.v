(* C83: printing the directions of the smallest and largest eigenvalues. *)
From Coq Require Import Reals List Sorted Permutation Lra Lia.
From Verif Require Import Base PrintEigenModel PrintEigenSpec PrintEigenProofs.
Import ListNotations.
Open Scope R_scope.

(* the eigen solver gives n > 0 eigenpairs of vectors as long as the features, and at most n are asked for: what is printed is the
   smallest and largest eigenvalue, and for each of the [count] first eigenpairs in ascending order its eigenvalue and its coefficients
   above the threshold with their features, in descending order *)
Theorem C83_small feature sort eigen_solver matrix (features : list feature) threshold count values vectors : sorts sort ->
  eigen_solver matrix = (values, vectors) -> length values = length vectors ->
  Forall (fun v => length v = length features) vectors -> values <> [] -> (count <= length values)%nat ->
  exists out, print_small_eigen_directions feature eigen_solver sort matrix features count threshold = Ok out /\
    reports feature Rle features threshold (combine values vectors) count out.
Proof.
  intros S. apply (print_spec feature sort S features threshold eigen_solver _ Rle (fun A key => swo_key A key)).
  intros a b. apply Rltb_false.
Qed.
Print Assumptions C83_small.
Theorem C83_large feature sort eigen_solver matrix (features : list feature) threshold count values vectors : sorts sort ->
  eigen_solver matrix = (values, vectors) -> length values = length vectors ->
  Forall (fun v => length v = length features) vectors -> values <> [] -> (count <= length values)%nat ->
  exists out, print_large_eigen_directions feature eigen_solver sort matrix features count threshold = Ok out /\
    reports feature Rge features threshold (combine values vectors) count out.
Proof.
  intros S. apply (print_spec feature sort S features threshold eigen_solver _ Rge (fun A key => swo_rev A key)).
  intros a b H. apply Rle_ge. apply Rltb_false. exact H.
Qed.
Print Assumptions C83_large.

(* asking for more directions than there are reads out of bounds *)
Theorem C83_count_refuted feature sort eigen_solver matrix (features : list feature) threshold count values vectors : sorts sort ->
  eigen_solver matrix = (values, vectors) -> length values = length vectors ->
  Forall (fun v => length v = length features) vectors -> values <> [] -> (length values < count)%nat ->
  print_small_eigen_directions feature eigen_solver sort matrix features count threshold = UB /\
  print_large_eigen_directions feature eigen_solver sort matrix features count threshold = UB.
Proof.
  intros S E L F N C. split.
  - apply (print_too_many feature sort S features threshold eigen_solver _ matrix count values vectors); auto. intros. apply swo_key.
  - apply (print_too_many feature sort S features threshold eigen_solver _ matrix count values vectors); auto. intros. apply (swo_rev A key).
Qed.
Print Assumptions C83_count_refuted.
(* as do features that are too few *)
Theorem C83_features_refuted feature sort eigen_solver matrix : sorts sort -> eigen_solver matrix = ([1], [[1]]) ->
  print_small_eigen_directions feature eigen_solver sort matrix [] 1 (1/2) = UB.
Proof.
  intros S E. unfold print_small_eigen_directions, print_eigen_directions. rewrite E. cbn [fst snd combine].
  destruct (S _ _ [(1, [1])] (swo_key _ fst)) as [P _]. apply Permutation_length_1_inv in P. rewrite P. cbn.
  unfold print_direction. cbn [fst snd length seq]. destruct (S _ _ [0%nat] (swo_rev nat (fun i => Rabs (nth i [1] 0)))) as [Q _].
  apply Permutation_length_1_inv in Q. cbn [nth] in *. rewrite Q. cbn. rewrite Rabs_R1. unfold Rltb. destruct (Rlt_dec (1/2) 1); [reflexivity|lra].
Qed.
Print Assumptions C83_features_refuted.

(* a sort as assumed, and a case *)
Fixpoint insert (A : Type) (comp : A -> A -> bool) (x : A) (l : list A) : list A :=
  match l with [] => [x] | y :: r => if comp y x then y :: insert A comp x r else x :: l end.
Definition insertion_sort (A : Type) (comp : A -> A -> bool) (l : list A) : list A := fold_right (insert A comp) [] l.
Lemma insert_perm A comp x l : Permutation (x :: l) (insert A comp x l).
Proof. induction l as [|y l IH]; cbn; auto. destruct (comp y x); auto. rewrite perm_swap. constructor. exact IH. Qed.
Lemma insertion_sorts : sorts insertion_sort.
Proof.
  intros A comp l [I [T N]]. induction l as [|x l [P S]]; cbn; [split; constructor|]. split.
  - rewrite <- insert_perm. constructor. exact P.
  - clear P. change (fold_right (insert A comp) [] l) with (insertion_sort A comp l). generalize dependent (insertion_sort A comp l). intros m S.
    induction S as [|y r S IH F]; cbn; [repeat constructor|]. destruct (comp y x) eqn:E.
    + constructor; [exact IH|]. apply (Permutation_Forall (insert_perm A comp x r)). constructor; [|exact F].
      destruct (comp x y) eqn:E'; [|reflexivity]. pose proof (T _ _ _ E E') as C. rewrite I in C. discriminate.
    + constructor; [constructor; assumption|]. constructor; [exact E|]. eapply Forall_impl; [|exact F]. cbn. intros z Z. apply (N z y x Z E).
Qed.
Example C83_meets : let solver := fun _ : list (list R) => ([2; 1], [[3/5; - (4/5)]; [4/5; 3/5]]) in
  sorts insertion_sort /\ exists out, print_small_eigen_directions nat solver insertion_sort [[1]] [7%nat; 8%nat] 1 (7/10) = Ok out /\
  out = [Min nat 1; Max nat 2; EigenValue nat 1; Coef nat (4/5) 7%nat].
Proof.
  split; [exact insertion_sorts|]. eexists. split; [|reflexivity].
  assert (forall x y, x < y -> Rltb x y = true) as T by (intros; apply Rltb_spec; assumption).
  assert (forall x y, y <= x -> Rltb x y = false) as F by (intros; apply Rltb_false; assumption).
  unfold print_small_eigen_directions, print_eigen_directions, insertion_sort. cbn [fst snd combine fold_right insert minCoeff maxCoeff fold_left bind].
  rewrite (T 1 2), Rmin_right, Rmax_left by lra. cbn [print_directions]. unfold print_direction. cbn [fst snd length seq fold_right insert nth].
  rewrite (Rabs_right (3/5)), (Rabs_right (4/5)) by lra. rewrite (F (4/5) (3/5)) by lra. cbn [print_coefs nth_error].
  rewrite (Rabs_right (4/5)) by lra. rewrite (T (7/10) (4/5)) by lra.
  rewrite (Rabs_right (3/5)) by lra. rewrite (F (7/10) (3/5)) by lra. reflexivity.
Qed.
