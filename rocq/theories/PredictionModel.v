(* Model of core/prediction.hpp, core/fit_model.hpp and models/null_model.hpp: which of the prediction methods of a
   model answers mean(), marginal() and joint(), and what a prediction refers to. Numbers are of any type, a vector
   is a list and a matrix a list of rows. *)
From Coq Require Import List Arith.
Import ListNotations.
From Verif Require Import Base.
Set Implicit Arguments.
Set Maximal Implicit Insertion.
Set Contextual Implicit.

Section Dispatch.
Variable N : Type.
Record marginal := Marginal { m_mean : list N; m_variance : list N }.
Record joint := Joint { j_mean : list N; j_covariance : list (list N) }.
(* covariance.diagonal() *)
Fixpoint diagonal_from (k : nat) (rows : list (list N)) : outcome (list N) :=
  match rows with
  | [] => Ok []
  | row :: rest => x <- of_option UB (nth_error row k) ;; l <- diagonal_from (S k) rest ;; Ok (x :: l)
  end.
(* JointDistribution::marginal, core/distribution.hpp:229-231 *)
Definition joint_marginal (j : joint) : outcome marginal :=
  d <- diagonal_from 0 (j_covariance j) ;; Ok (Marginal (j_mean j) d).

Section Model.
Variable Fit Feature : Type.
(* the _predict_impl methods a model has for a feature type: has_valid_predict_mean, _marginal and _joint of
   core/traits.hpp decide at compile time *)
Record methods := Methods {
  p_mean : option (Fit -> list Feature -> outcome (list N));
  p_marginal : option (Fit -> list Feature -> outcome marginal);
  p_joint : option (Fit -> list Feature -> outcome joint) }.

(* MeanPredictor::_mean, core/prediction.hpp:32-71. None: no overload exists *)
Definition mean_predictor (m : methods) : option (Fit -> list Feature -> outcome (list N)) :=
  match p_mean m, p_marginal m, p_joint m with
  | Some f, _, _ => Some f
  | None, Some g, _ => Some (fun fit fs => r <- g fit fs ;; Ok (m_mean r))
  | None, None, Some h => Some (fun fit fs => r <- h fit fs ;; Ok (j_mean r))
  | None, None, None => None
  end.
(* MarginalPredictor::_marginal, core/prediction.hpp:73-100 *)
Definition marginal_predictor (m : methods) : option (Fit -> list Feature -> outcome marginal) :=
  match p_marginal m, p_joint m with
  | Some g, _ => Some g
  | None, Some h => Some (fun fit fs => r <- h fit fs ;; joint_marginal r)
  | None, None => None
  end.
(* JointPredictor::_joint, core/prediction.hpp:102-113 *)
Definition joint_predictor (m : methods) : option (Fit -> list Feature -> outcome joint) := p_joint m.

(* Prediction::mean, core/prediction.hpp:132-152. None: the function is deleted, the program does not compile *)
Definition mean (m : methods) (fit : Fit) (features : list Feature) : option (outcome (list N)) :=
  match mean_predictor m with
  | Some f => Some (match features with [] => Ok [] | _ => f fit features end)
  | None => None
  end.
(* Prediction::marginal, core/prediction.hpp:154-175 *)
Definition prediction_marginal (m : methods) (fit : Fit) (features : list Feature) : option (outcome marginal) :=
  match marginal_predictor m with
  | Some f => Some (match features with [] => Ok (Marginal [] []) | _ => f fit features end)
  | None => None
  end.
(* Prediction::joint, core/prediction.hpp:177-194 *)
Definition prediction_joint (m : methods) (fit : Fit) (features : list Feature) : option (outcome joint) :=
  match joint_predictor m with
  | Some f => Some (match features with [] => Ok (Joint [] []) | _ => f fit features end)
  | None => None
  end.

Inductive predict_type := MeanType | MarginalType | JointType.
Inductive answer := AMean (v : list N) | AMarginal (m : marginal) | AJoint (j : joint).
Definition lift {A} (k : A -> answer) (o : option (outcome A)) : option (outcome answer) :=
  match o with Some r => Some (x <- r ;; Ok (k x)) | None => None end.
(* Prediction::get and its overloads, core/prediction.hpp:196-221 *)
Definition get (t : predict_type) (m : methods) (fit : Fit) (features : list Feature) : option (outcome answer) :=
  match t with
  | MeanType => lift AMean (mean m fit features)
  | MarginalType => lift AMarginal (prediction_marginal m fit features)
  | JointType => lift AJoint (prediction_joint m fit features)
  end.
End Model.

(* NullModel, models/null_model.hpp:44-73: predictions of every fit; [big] is the number 1.e4 *)
Section Null.
Variable zero big : N.
Variable Feature : Type.
Definition scaled_identity (n : nat) : list (list N) :=
  map (fun i => map (fun j => if i =? j then big else zero) (seq 0 n)) (seq 0 n).
Definition null_joint (fit : unit) (features : list Feature) : outcome joint :=
  let n := length features in Ok (Joint (repeat zero n) (scaled_identity n)).
Definition null_marginal (fit : unit) (features : list Feature) : outcome marginal :=
  let n := length features in Ok (Marginal (repeat zero n) (repeat big n)).
Definition null_methods : methods unit Feature :=
  Methods None (Some null_marginal) (Some null_joint).
End Null.
End Dispatch.

(* ---- what a prediction refers to: core/fit_model.hpp and core/declarations.hpp:53-57 ---- *)
Section Lifetime.
(* a FitModel is a model and its fit; [ask] evaluates a prediction, [update] is _update_impl *)
Variable Model Fit Feature Data Answer : Type.
Variable noisy : Feature -> Feature.
Variable update_impl : Model -> Fit -> Data -> Fit.
Variable ask : predict_type -> Model -> Fit -> list Feature -> Answer.

(* the memory of a FitModel object *)
Inductive object := Alive (m : Model) (f : Fit) | MovedFrom | Destroyed.
(* Prediction keeps the model and the fit, PredictionReference keeps references to them; both copy the features,
   core/prediction.hpp:223-225 *)
Inductive source := Owns (m : Model) (f : Fit) | RefersTo (location : nat).
Record prediction := Prediction { p_source : source; p_features : list Feature }.
Record memory := Memory { objects : list object; predictions : list prediction }.

Inductive action :=
| Construct (m : Model) (f : Fit)                       (* model.fit(...): a new FitModel *)
| Predict (location : nat) (fs : list Feature)          (* predict() const &, core/fit_model.hpp:36-41 *)
| PredictMoving (location : nat) (fs : list Feature)    (* predict() &&, core/fit_model.hpp:43-50 *)
| PredictNoisy (location : nat) (fs : list Feature)     (* predict_with_measurement_noise, core/fit_model.hpp:52-61 *)
| Update (location : nat) (d : Data)                    (* update, core/fit_model.hpp:63-80: a new FitModel *)
| UpdateInPlace (location : nat) (d : Data)             (* update_in_place, core/fit_model.hpp:82-94 *)
| Assign (location : nat) (m : Model) (f : Fit)         (* through get_fit() & or get_model() &, or operator= *)
| Destroy (location : nat).                             (* end of the lifetime *)

Definition place (s : memory) (l : nat) (o : object) : memory :=
  Memory (set_nth (objects s) l o) (predictions s).
Definition add_object (s : memory) (o : object) : memory := Memory (objects s ++ [o]) (predictions s).
Definition add_prediction (s : memory) (p : prediction) : memory := Memory (objects s) (predictions s ++ [p]).
Definition alive (s : memory) (l : nat) : outcome (Model * Fit) :=
  match nth_error (objects s) l with Some (Alive m f) => Ok (m, f) | _ => UB end.

Definition act (a : action) (s : memory) : outcome memory :=
  match a with
  | Construct m f => Ok (add_object s (Alive m f))
  | Predict l fs => _ <- alive s l ;; Ok (add_prediction s (Prediction (RefersTo l) fs))
  | PredictMoving l fs =>
      mf <- alive s l ;; Ok (add_prediction (place s l MovedFrom) (Prediction (Owns (fst mf) (snd mf)) fs))
  | PredictNoisy l fs => _ <- alive s l ;; Ok (add_prediction s (Prediction (RefersTo l) (map noisy fs)))
  | Update l d => mf <- alive s l ;; Ok (add_object s (Alive (fst mf) (update_impl (fst mf) (snd mf) d)))
  | UpdateInPlace l d => mf <- alive s l ;; Ok (place s l (Alive (fst mf) (update_impl (fst mf) (snd mf) d)))
  | Assign l m f =>
      match nth_error (objects s) l with
      | Some (Alive _ _) | Some MovedFrom => Ok (place s l (Alive m f))
      | _ => UB
      end
  | Destroy l =>
      match nth_error (objects s) l with
      | Some (Alive _ _) | Some MovedFrom => Ok (place s l Destroyed)
      | _ => UB
      end
  end.
Definition run (actions : list action) (s : memory) : outcome memory := foldM (fun s a => act a s) actions s.

(* mean(), marginal() or joint() of a prediction: it is evaluated at each call, against what it refers to then *)
Definition evaluate (s : memory) (p : nat) (t : predict_type) : outcome Answer :=
  match nth_error (predictions s) p with
  | Some (Prediction (Owns m f) fs) => Ok (ask t m f fs)
  | Some (Prediction (RefersTo l) fs) => mf <- alive s l ;; Ok (ask t (fst mf) (snd mf) fs)
  | None => UB
  end.

(* model.fit(...).predict(fs) and model.fit(...).predict_with_measurement_noise(fs): the FitModel is a temporary,
   which is destroyed at the end of the expression; l is its location *)
Definition predict_temporary (l : nat) (m : Model) (f : Fit) (fs : list Feature) : list action :=
  [Construct m f; PredictMoving l fs; Destroy l].
Definition predict_temporary_noisy (l : nat) (m : Model) (f : Fit) (fs : list Feature) : list action :=
  [Construct m f; PredictNoisy l fs; Destroy l].
End Lifetime.
