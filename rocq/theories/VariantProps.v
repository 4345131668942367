(* C74: concatenating features of different types, and variants. *)
From Coq Require Import Lia.
From Verif Require Import Base BaseProofs IndexingModel DatasetModel VariantModel VariantSpec VariantProofs.

(* the result type: the types of both sides, each once; only equal types stay what they are; two different variants, even of the
   same types in another order, cannot be concatenated *)
Theorem C74_type (x y : ftype) : proper x -> proper y ->
  match concatenation_type x y with
  | Some out => proper out /\ (forall t, In t (types_of out) <-> In t (types_of x) \/ In t (types_of y)) /\
      (match out with Plain _ => x = out /\ y = out | _ => True end)
  | None => exists ts us, x = Variant ts /\ y = Variant us /\ ts <> us
  end.
Proof. exact (concatenation_type_spec x y). Qed.
Print Assumptions C74_type.

(* the values: those of the left and then those of the right, each with the type it had *)
Theorem C74_concatenate {V} (x : ftype) (xs : list (value V)) (y : ftype) (ys : list (value V)) :
  proper x -> proper y -> Forall (typed x) xs -> Forall (typed y) ys ->
  match concatenation_type x y with
  | Some out => exists zs, concatenate x xs y ys = Some (out, zs) /\ Forall (typed out) zs /\
                  contents out zs = contents x xs ++ contents y ys
  | None => concatenate x xs y ys = None
  end.
Proof. exact (concatenate_spec x xs y ys). Qed.
Print Assumptions C74_concatenate.

Theorem C74_concatenate_list {V} (all_xs : list (list V)) : concatenate_list all_xs = concat all_xs.
Proof. exact (concatenate_list_spec all_xs). Qed.
Print Assumptions C74_concatenate_list.

(* datasets: feature, mean and variance stay together; the order is that of the left and then of the right *)
Theorem C74_datasets {V D} (x : ftype) (xs : dataset (value V) D) (y : ftype) (ys : dataset (value V) D) (out : ftype) :
  proper x -> proper y -> Forall (typed x) (ds_features xs) -> Forall (typed y) (ds_features ys) ->
  length (m_mean (ds_targets xs)) = length (ds_features xs) -> length (m_var (ds_targets xs)) = length (ds_features xs) ->
  length (m_mean (ds_targets ys)) = length (ds_features ys) -> length (m_var (ds_targets ys)) = length (ds_features ys) ->
  concatenation_type x y = Some out ->
  exists d, concatenate_typed x xs y ys = Some (out, Ok d) /\
    contents out (ds_features d) = contents x (ds_features xs) ++ contents y (ds_features ys) /\
    m_mean (ds_targets d) = m_mean (ds_targets xs) ++ m_mean (ds_targets ys) /\
    m_var (ds_targets d) = m_var (ds_targets xs) ++ m_var (ds_targets ys) /\ ds_metadata d = [].
Proof.
  intros Px Py Fx Fy L1 L2 L3 L4 E. pose proof (concatenate_spec x (ds_features xs) y (ds_features ys) Px Py Fx Fy) as S.
  rewrite E in S. destruct S as (zs & Ez & T & C). unfold concatenate_typed. rewrite Ez.
  assert (Lz : length zs = length (ds_features xs) + length (ds_features ys)).
  { apply (f_equal (@length _)) in C. unfold contents in C. rewrite app_length, !map_length in C. exact C. }
  unfold concatenate_marginals, marginal_make. rewrite !app_length, L1, L2, L3, L4, Nat.eqb_refl. cbn [assert_then bind].
  unfold dataset_make, marginal_size. cbn [m_mean m_var]. rewrite !app_length, L1, L2, L3, L4, Nat.eqb_refl. cbn [assert_then bind].
  rewrite Lz, Nat.eqb_refl. cbn [assert_then]. eexists. split; [reflexivity|]. auto.
Qed.
Print Assumptions C74_datasets.

(* to_variant_vector keeps order, types and values; what does not fit does not compile *)
Theorem C74_to_variant {V} (ts : list nat) (x : ftype) (xs : list (value V)) : Forall (typed x) xs ->
  (incl (types_of x) ts ->
   exists ys, to_variant_vector ts x xs = Some ys /\ Forall (typed (Variant ts)) ys /\ contents (Variant ts) ys = contents x xs) /\
  (~ incl (types_of x) ts -> to_variant_vector ts x xs = None).
Proof.
  intros F. pose proof (to_variant_spec ts x xs F) as S.
  destruct (forallb (fun t => is_in_variant t ts) (types_of x)) eqn:E; split; auto; intros H; exfalso.
  - apply H. apply is_sub_spec. exact E.
  - apply is_sub_spec in H. unfold is_sub_variant in H. congruence.
Qed.
Print Assumptions C74_to_variant.

(* extract_from_variants: exactly the values of one type, in order *)
Theorem C74_extract {V} (t : nat) (ts : list nat) (xs : list (value V)) : Forall (typed (Variant ts)) xs ->
  (In t ts -> extract_from_variants t ts xs = Some (of_type t (contents (Variant ts) xs))) /\
  (~ In t ts -> extract_from_variants t ts xs = None).
Proof.
  intros F. unfold extract_from_variants. split; intros H.
  - rewrite (proj2 (is_in_spec t ts) H). apply extract_loop_spec. exact F.
  - rewrite (proj2 (is_in_false t ts) H). reflexivity.
Qed.
Print Assumptions C74_extract.

(* of a dataset: each with its own mean and variance *)
Theorem C74_extract_dataset {V D} (t : nat) (ts : list nat) (d : dataset (value V) D) :
  Forall (typed (Variant ts)) (ds_features d) ->
  length (m_mean (ds_targets d)) = length (ds_features d) -> length (m_var (ds_targets d)) = length (ds_features d) ->
  let cs := contents (Variant ts) (ds_features d) in
  In t ts ->
  extract_dataset t ts d = Some (Ok (DS (of_type t cs) (Marg (at_type t cs (m_mean (ds_targets d))) (at_type t cs (m_var (ds_targets d)))) [])).
Proof. exact (extract_dataset_spec t ts d). Qed.
Print Assumptions C74_extract_dataset.

(* putting two types together and taking one out gives it back *)
Theorem C74_round_trip {V} (a b : nat) (xs ys : list (value V)) out zs : a <> b ->
  Forall (typed (Plain a)) xs -> Forall (typed (Plain b)) ys -> concatenate (Plain a) xs (Plain b) ys = Some (out, zs) ->
  exists ts, out = Variant ts /\ extract_from_variants a ts zs = Some (map value_of xs) /\
    extract_from_variants b ts zs = Some (map value_of ys).
Proof.
  intros Hab Fx Fy E.
  assert (Pa : forall t, proper (Plain t)) by (intros t; repeat constructor; intros []).
  pose proof (concatenate_spec (Plain a) xs (Plain b) ys (Pa a) (Pa b) Fx Fy) as S.
  assert (Et : concatenation_type (Plain a) (Plain b) = Some (Variant [a; b])).
  { cbn. destruct (Nat.eqb_spec a b); [contradiction|reflexivity]. }
  rewrite Et in S. destruct S as (zs' & E' & T & C). rewrite E in E'. injection E' as -> ->.
  exists [a; b]. split; [reflexivity|].
  rewrite (proj1 (C74_extract a [a; b] zs' T)) by (left; reflexivity).
  rewrite (proj1 (C74_extract b [a; b] zs' T)) by (right; left; reflexivity).
  rewrite C, !of_type_app, !of_type_plain by assumption.
  rewrite (of_type_other a (Plain b) ys) by (try assumption; intros [?|[]]; congruence).
  rewrite (of_type_other b (Plain a) xs) by (try assumption; intros [?|[]]; congruence).
  rewrite app_nil_r. split; reflexivity.
Qed.
Print Assumptions C74_round_trip.

(* every value of a variant vector is extracted by exactly one type *)
Theorem C74_partition {V} (ts : list nat) (xs : list (value V)) : NoDup ts -> Forall (typed (Variant ts)) xs ->
  list_sum (map (fun t => length (of_type t (contents (Variant ts) xs))) ts) = length xs.
Proof.
  intros Hnd. induction xs as [|x xs IH]; intros F.
  - clear. induction ts as [|t ts IH]; [reflexivity|exact IH].
  - inversion F as [|? ? H1 H2]; subst. cbn [length]. rewrite <- (IH H2). clear IH.
    destruct (match_typed ts x H1) as (u & v & _ & C).
    assert (Hu : In u ts).
    { destruct x as [|i w]; [contradiction|]. cbn in C. destruct (nth_error ts i) eqn:En; [|discriminate].
      injection C as <- <-. eapply nth_error_In. exact En. }
    unfold contents. cbn [map]. fold (contents (Variant ts) xs). rewrite C. generalize (contents (Variant ts) xs) as cs. intros cs.
    clear - Hnd Hu. 
    assert (G : forall t, length (of_type t (Some (u, v) :: cs)) = (if Nat.eqb u t then 1 else 0) + length (of_type t cs)).
    { intros t. unfold of_type. cbn [flat_map]. rewrite app_length. destruct (Nat.eqb u t); reflexivity. }
    induction ts as [|t ts IH]; [contradiction|]. inversion Hnd as [|? ? N1 N2]; subst.
    cbn [map list_sum fold_right]. fold (list_sum (map (fun t0 => length (of_type t0 (Some (u, v) :: cs))) ts)).
    fold (list_sum (map (fun t0 => length (of_type t0 cs)) ts)). rewrite G. destruct (Nat.eqb_spec u t) as [->|Hne].
    + assert (E : forall l, ~ In t l -> map (fun t0 => length (of_type t0 (Some (t, v) :: cs))) l = map (fun t0 => length (of_type t0 cs)) l).
      { intros l Hl. apply map_ext_in. intros w Hw. rewrite G. destruct (Nat.eqb_spec t w) as [->|]; [contradiction|reflexivity]. }
      rewrite (E ts N1). lia.
    + destruct Hu as [->|Hu]; [contradiction|]. rewrite (IH N2 Hu). lia.
Qed.
Print Assumptions C74_partition.

(* a vector of type 7 and one of variant<1, 2>: variant<7, 1, 2> *)
Example C74_meets :
  proper (Plain 7) /\ proper (Variant [1; 2]) /\ Forall (typed (Plain 7)) [VPlain 10; VPlain 11] /\
  Forall (typed (Variant [1; 2])) [VAlt 1 20; VAlt 0 21] /\
  concatenate (Plain 7) [VPlain 10; VPlain 11] (Variant [1; 2]) [VAlt 1 20; VAlt 0 21] =
    Some (Variant [7; 1; 2], [VAlt 0 10; VAlt 0 11; VAlt 2 20; VAlt 1 21]) /\
  extract_from_variants 2 [7; 1; 2] [VAlt 0 10; VAlt 0 11; VAlt 2 20; VAlt 1 21] = Some [20] /\
  extract_dataset 7 [7; 2] (DS [VAlt 0 10; VAlt 1 20; VAlt 0 11] (Marg [1; 2; 3] [4; 5; 6]) []) = Some (Ok (DS [10; 11] (Marg [1; 3] [4; 6]) [])) /\
  concatenate (V := nat) (Variant [1; 2]) [] (Variant [2; 1]) [] = None.
Proof. repeat split; repeat constructor; cbn; intuition congruence. Qed.
