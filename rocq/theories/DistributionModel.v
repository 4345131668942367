(* Model of core/distribution.hpp and core/transformed_distribution.hpp over exact reals. Vectors and matrices have their
   dimensions in their types, so operands of different sizes (an assertion of Eigen) are not modelled, except for
   concatenation, which is about sizes and is modelled on lists. *)
From Coq Require Import Reals List.
From Verif Require Base.
From mathcomp Require Import all_ssreflect all_algebra.
From Verif Require Import RealStruct GpModel LdltModel.
Set Implicit Arguments.
Unset Strict Implicit.
Unset Printing Implicit Defensive.
Import GRing.Theory Num.Theory.
Local Open Scope ring_scope.

Definition jd n := joint R_fieldType n.
Definition md n := marginal R_fieldType n.
Definition JD n (m : 'cV[R]_n) (c : 'M[R]_n) : jd n := Joint (F := R_fieldType) m c.
Definition MD n (m v : 'cV[R]_n) : md n := Marginal (F := R_fieldType) m v.

(* core/distribution.hpp:123-131 *)
Definition marginal_add n (a b : md n) : md n := MD (m_mean a + m_mean b) (m_var a + m_var b).
Definition marginal_sub n (a b : md n) : md n := MD (m_mean a - m_mean b) (m_var a + m_var b).
(* core/distribution.hpp:133-135 *)
Definition marginal_scale n (a : md n) (scale : R) : md n := MD (scale *: m_mean a) ((scale * scale) *: m_var a).
(* core/distribution.hpp:197-199 *)
Definition joint_scale n (a : jd n) (scale : R) : jd n := JD (scale *: j_mean a) ((scale * scale) *: j_cov a).
(* core/distribution.hpp:201-203 *)
Definition joint_add n (a b : jd n) : jd n := JD (j_mean a + j_mean b) (j_cov a + j_cov b).
(* core/distribution.hpp:205-209 *)
Definition joint_add_marginal n (a : jd n) (b : md n) : jd n :=
  let new_covariance := j_cov a in
  let new_covariance := new_covariance + diag (m_var b) in
  JD (j_mean a + m_mean b) new_covariance.
(* core/distribution.hpp:211-215 *)
Definition joint_sub n (a b : jd n) : jd n :=
  let new_covariance := j_cov a in
  let new_covariance := new_covariance + j_cov b in
  JD (j_mean a - j_mean b) new_covariance.
(* core/distribution.hpp:217-221 *)
Definition joint_sub_marginal n (a : jd n) (b : md n) : jd n :=
  let new_covariance := j_cov a in
  let new_covariance := new_covariance + diag (m_var b) in
  JD (j_mean a - m_mean b) new_covariance.

(* Eigen: x.isApprox(y, epsilon) compares the squared norm of x - y to epsilon^2 times the smaller of the squared norms *)
Definition squared_norm m n (x : 'M[R]_(m, n)) : R := \sum_i \sum_j x i j ^+ 2.
Definition is_approx m n (x y : 'M[R]_(m, n)) (epsilon : R) : bool :=
  squared_norm (x - y) <= epsilon ^+ 2 * (if squared_norm y < squared_norm x then squared_norm y else squared_norm x).
(* core/distribution.hpp:110-117 and 184-191 *)
Definition marginal_approximately_equal n (a b : md n) (epsilon : R) : bool :=
  is_approx (m_mean a) (m_mean b) epsilon && is_approx (m_var a) (m_var b) epsilon.
Definition joint_approximately_equal n (a b : jd n) (epsilon : R) : bool :=
  is_approx (j_mean a) (j_mean b) epsilon && is_approx (j_cov a) (j_cov b) epsilon.

(* core/transformed_distribution.hpp:39-45, 54-60: the square root of a negative variance is NaN, which spreads to every
   entry of the results that use the product; None stands for that *)
Definition product_sqrt_diagonal m n (matrix : 'M[R]_(m, n)) (diagonal : 'cV[R]_n) : option 'M[R]_(m, n) :=
  if [forall i, 0 <= diagonal i 0] then Some (matrix *m diag (\col_i R_sqrt.sqrt (diagonal i 0))) else None.
(* core/transformed_distribution.hpp:47-52, 62-68; f is the factorization SerializableLDLT(rhs) *)
Definition product_sqrt_dense m n (lhs : 'M[R]_(m, n)) (f : ldlt_state n) : 'M[R]_(m, n) := lhs *m (sqrt_transpose f)^T.
(* core/transformed_distribution.hpp:87-101, for the two kinds of distribution; the mean is :76, :83 *)
Definition row_squares m n (partial_variance : 'M[R]_(m, n)) : 'cV[R]_m := \col_i \sum_j partial_variance i j ^+ 2.
Definition transform_marginal_marginal m n (matrix : 'M[R]_(m, n)) (d : md n) : option (md m) :=
  omap (fun partial_variance => MD (matrix *m m_mean d) (row_squares partial_variance)) (product_sqrt_diagonal matrix (m_var d)).
Definition transform_marginal_joint m n (matrix : 'M[R]_(m, n)) (d : md n) : option (jd m) :=
  omap (fun partial_variance => JD (matrix *m m_mean d) (partial_variance *m partial_variance^T)) (product_sqrt_diagonal matrix (m_var d)).
Definition transform_joint_marginal m n (f : ldlt_state n) (matrix : 'M[R]_(m, n)) (d : jd n) : md m :=
  MD (matrix *m j_mean d) (row_squares (product_sqrt_dense matrix f)).
Definition transform_joint_joint m n (f : ldlt_state n) (matrix : 'M[R]_(m, n)) (d : jd n) : jd m :=
  let partial_variance := product_sqrt_dense matrix f in
  JD (matrix *m j_mean d) (partial_variance *m partial_variance^T).

(* ---- concatenation: a marginal distribution as the lists of its means and variances ---- *)
Record lists (T : Type) := Lists { l_mean : list T; l_var : list T }.
Section Concatenate.
Variable T : Type.
Variable uninitialized : T.
(* core/distribution.hpp:256-262 *)
Definition concatenate_two (x y : lists T) : lists T := Lists (List.app (l_mean x) (l_mean y)) (List.app (l_var x) (l_var y)).
(* v.middleRows(i, block.size()) = block; the range must be inside v, and the sizes must agree *)
Definition middle_rows_assign (v : list T) (i size : nat) (block : list T) : Base.outcome (list T) :=
  if Nat.leb (i + size) (length v) then
    if Nat.eqb size (length block) then Base.Ok (List.app (List.firstn i v) (List.app block (List.skipn (i + size) v)))
    else Base.Abort
  else Base.Abort.
(* core/distribution.hpp:278-282 *)
Fixpoint concatenate_loop (dists : list (lists T)) (i : nat) (mean variance : list T) : Base.outcome (list T * list T) :=
  match dists with
  | nil => Base.Ok (mean, variance)
  | cons dist rest =>
      Base.bind (middle_rows_assign mean i (length (l_mean dist)) (l_mean dist)) (fun mean =>
      Base.bind (middle_rows_assign variance i (length (l_mean dist)) (l_var dist)) (fun variance =>
      concatenate_loop rest (i + length (l_mean dist))%N mean variance))
  end.
(* core/distribution.hpp:264-285 *)
Definition concatenate_all (dists : list (lists T)) : Base.outcome (lists T) :=
  match dists with
  | nil => Base.Ok (Lists nil nil)
  | _ =>
      let size := List.fold_left (fun size dist => size + length (l_mean dist))%N dists 0%N in
      Base.bind (concatenate_loop dists 0 (List.repeat uninitialized size) (List.repeat uninitialized size)) (fun r =>
      Base.Ok (Lists r.1 r.2))
  end.
(* operator[], core/distribution.hpp:249-254: an index out of range is an assertion *)
Definition element (d : lists T) (index : nat) : Base.outcome (T * T) :=
  match List.nth_error (l_mean d) index, List.nth_error (l_var d) index with
  | Some m, Some v => Base.Ok (m, v)
  | _, _ => Base.Abort
  end.
End Concatenate.
