(* Archives of models that have none of their own (cereal/model.hpp) and of representations of covariances (cereal/representations.hpp). *)
From Coq Require Import String.
From Verif Require Import Base ExtRealModel StdMapModel ParamsModel CerealModel.
Open Scope string_scope.
Open Scope list_scope.

Section Archives.
Variable bytes : Type.
Variable prior_typeid : nat -> string.
(* core/model.hpp:21, 166: what a model has as a ParameterHandlingMixin, and its insights *)
Record model := Model { m_handler : handler; m_insights : insights }.
(* cereal/model.hpp:20-25 *)
Definition save_model (m : model) : outcome (stream bytes) :=
  s1 <- save (named bytes "params" (c_store bytes prior_typeid)) (get_params (m_handler m)) ;;
  s2 <- save (named bytes "insights" (c_map bytes (c_string bytes) (c_string bytes))) (m_insights m) ;;
  Ok (s1 ++ s2).
(* cereal/model.hpp:27-33 *)
Definition load_model (m : model) (s : stream bytes) : outcome (model * stream bytes) :=
  r1 <- load (named bytes "params" (c_store bytes prior_typeid)) s ;;
  h <- h_set_params (fst r1) (m_handler m) ;;
  r2 <- load (named bytes "insights" (c_map bytes (c_string bytes) (c_string bytes))) (snd r1) ;;
  Ok (Model h (fst r2), snd r2).

Variable text : bool.
Variables enc dec : bytes -> bytes.
Variable E : Type.
Variable zc : list E -> bytes.
Variable zd : bytes -> nat -> option (list E).
Variable gd : bytes -> option (list E).
Variable ic : list Z -> bytes.
Variable id_ : bytes -> nat -> option (list Z).
Variable igd : bytes -> option (list Z).
(* ExplainedCovariance: its outer factorization and its inner matrix, cereal/representations.hpp:18-24 *)
Definition c_explained (unset : nat -> nat -> E) : codec bytes (ldlt E * matrix E) :=
  c_pair bytes (named bytes "outer_ldlt" (c_ldlt bytes text enc dec E zc zd gd ic id_ igd unset))
    (named bytes "inner" (c_dense bytes text enc dec E zc zd gd)).
(* DirectInverse: the inverse, cereal/representations.hpp:26-30 *)
Definition c_direct_inverse : codec bytes (matrix E) := named bytes "inverse" (c_dense bytes text enc dec E zc zd gd).
End Archives.
