(* Programs that use the Gaussian process API, and the hypotheses stated about them. *)
From mathcomp Require Import all_ssreflect all_algebra.
From Verif Require Import GpModel.
Set Implicit Arguments.
Unset Strict Implicit.
Unset Printing Implicit Defensive.
Import GRing.Theory.
Local Open Scope ring_scope.

Section History.
Variable F : fieldType.
Variable X : Type.
Variable cov : feature X -> feature X -> F.
Variable mu : feature X -> F.

(* prior covariance of noisy observations of the features, and the zero mean observations *)
Definition kmat n (xs : 'I_n -> feature X) (t : marginal F n) : 'M[F]_n :=
  cov_mx cov (as_measurement (X:=X) \o xs) (as_measurement (X:=X) \o xs) + diag (m_var t).
Definition kvec n (xs : 'I_n -> feature X) (t : marginal F n) : 'cV[F]_n :=
  m_mean t - mean_v mu (as_measurement (X:=X) \o xs).

(* the covariance function and mean have no terms that apply to measurements of the new
   features ys only *)
Definition agree_new n m (xs : 'I_n -> feature X) (ys : 'I_m -> feature X) : Prop :=
  (forall i j, cov (as_measurement (xs i)) (as_measurement (ys j)) = cov (xs i) (ys j)) /\
  (forall i j, cov (as_measurement (ys i)) (as_measurement (ys j)) = cov (ys i) (ys j)) /\
  (forall j, mu (as_measurement (ys j)) = mu (ys j)).

(* every fit a program can reach: fit, fit_from_prediction, update *)
Inductive reachable : forall n, gp_fit F X n -> Prop :=
| reach_fit n (xs : 'I_n -> feature X) t : reachable (fit cov mu xs t)
| reach_prediction n (us : 'I_n -> feature X) P : reachable (fit_from_prediction cov mu us P)
| reach_update n (gp : gp_fit F X n) m (ys : 'I_m -> feature X) t : reachable gp -> reachable (update cov mu gp ys t).

(* data arriving in batches *)
Definition batch : Type := {m : nat & (('I_m -> feature X) * marginal F m)%type}.
Fixpoint update_all n (gp : gp_fit F X n) (bs : seq batch) : {k : nat & gp_fit F X k} :=
  match bs with
  | [::] => existT _ n gp
  | existT _ d :: bs' => update_all (update cov mu gp d.1 d.2) bs'
  end.
Fixpoint concat_all n (xs : 'I_n -> feature X) (t : marginal F n) (bs : seq batch) : batch :=
  match bs with
  | [::] => existT _ n (xs, t)
  | existT _ d :: bs' => concat_all (concat_f xs d.1) (concat_t t d.2) bs'
  end.
End History.
