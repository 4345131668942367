(* std::string as a key of std::map: byte-wise lexicographic order.  Models the
   order used by ParameterStore (core/parameters.hpp:103) and by the metadata
   maps (core/dataset.hpp:28). *)
From Verif Require Import Base StdMapModel.
From Coq Require Strings.String Strings.Ascii.
Notation string := String.string.

Lemma string_compare_trans (a b c : string) :
  String.compare a b = Lt -> String.compare b c = Lt -> String.compare a c = Lt.
Proof.
  revert b c. induction a as [|x a IH]; intros [|y b] [|z c]; cbn; try congruence.
  unfold Ascii.compare.
  destruct (N.compare_spec (Ascii.N_of_ascii x) (Ascii.N_of_ascii y)) as [Exy|Lxy|Gxy]; try congruence;
  destruct (N.compare_spec (Ascii.N_of_ascii y) (Ascii.N_of_ascii z)) as [Eyz|Lyz|Gyz]; try congruence;
  destruct (N.compare_spec (Ascii.N_of_ascii x) (Ascii.N_of_ascii z)) as [Exz|Lxz|Gxz];
    intros H1 H2; try congruence; try lia; eauto.
Qed.

Global Instance OrdKey_string : OrdKey string.
Proof.
  refine {| kcmp := String.compare |}.
  - intros a b. split; [apply String.compare_eq_iff|]. intros <-.
    pose proof (String.compare_antisym a a) as E.
    destruct (String.compare a a); cbn in E; congruence.
  - intros a b. apply String.compare_antisym.
  - apply string_compare_trans.
Defined.
