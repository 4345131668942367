(* What the prediction methods of a model have to satisfy for its predictions to agree, and which actions leave a
   FitModel alone. *)
From Coq Require Import List.
Import ListNotations.
From Verif Require Import Base PredictionModel.

(* a square matrix *)
Definition square {N} (c : list (list N)) : Prop := forall row, In row c -> length row = length c.
(* whichever of the methods a model has, they describe the same law *)
Definition consistent {N Fit Feature} (m : methods N Fit Feature) : Prop :=
  forall fit fs,
    (forall f g, p_mean m = Some f -> p_marginal m = Some g -> forall r, g fit fs = Ok r ->
       f fit fs = Ok (m_mean r)) /\
    (forall f h, p_mean m = Some f -> p_joint m = Some h -> forall r, h fit fs = Ok r ->
       f fit fs = Ok (j_mean r)) /\
    (forall g h, p_marginal m = Some g -> p_joint m = Some h -> forall r, h fit fs = Ok r ->
       exists d, g fit fs = Ok (Marginal (j_mean r) d) /\
       length d = length (j_covariance r) /\
       forall i row, nth_error (j_covariance r) i = Some row -> nth_error d i = nth_error row i).

(* the actions after which the FitModel at location l still is what it was *)
Definition leaves {M F X D} (l : nat) (a : action M F X D) : Prop :=
  match a with
  | PredictMoving l' _ | UpdateInPlace l' _ | Assign l' _ _ | Destroy l' => l' <> l
  | _ => True
  end.
