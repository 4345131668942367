(* How a call cov(x, y) or mean(x) is dispatched: covariance_functions/callers.hpp, traits.hpp,
   covariance_function.hpp, measurement.hpp, scaling_function.hpp, mean_function.hpp and
   core/linear_combination.hpp (under include/albatross/src). The C++ code decides at compile time,
   from the types of the arguments, which overload runs. Here types are data, "is this call well
   formed?" is a boolean function of two types and calling a function gives None where the program would
   not compile. *)
From mathcomp Require Import all_ssreflect all_algebra.
Set Implicit Arguments.
Unset Strict Implicit.
Unset Printing Implicit Defensive.
Import GRing.Theory.
Local Open Scope ring_scope.

(* feature types: a class of the user, Measurement<T> (measurement.hpp:18-29), LinearCombination<T>
   (core/linear_combination.hpp:18-40), variant<Ts...> *)
Inductive ty := TBase (b : nat) | TMeas (t : ty) | TLin (t : ty) | TVar (ts : seq ty).

Definition is_variant (t : ty) : bool := if t is TVar _ then true else false.

Section Callers.
Variable F : fieldType.        (* double, exact *)
Variable P : Type.             (* the contents of a feature of a user class *)

(* values. The coefficients of a linear combination are kept with its values: the constructors make
   (linear_combination.hpp:26-34) or assert as many coefficients as values. *)
Inductive val :=
| VBase (b : nat) (p : P)
| VMeas (v : val)
| VLin (t : ty) (terms : seq (F * val))
| VVar (ts : seq ty) (v : val).

Fixpoint tyof (v : val) : ty :=
  match v with
  | VBase b _ => TBase b
  | VMeas v => TMeas (tyof v)
  | VLin t _ => TLin t
  | VVar ts _ => TVar ts
  end.

(* something that can be called with two features: [ok X Y] holds when call(X, Y) is well formed *)
Record caller := Caller { ok : ty -> ty -> bool; call : val -> val -> option F }.

(* has_valid_cov_caller, traits.hpp:39-43, and its specialization for two variants, 110-138 *)
Definition valid_for_all_variants (s : caller) (ts : seq ty) : bool :=
  ~~ nilp ts && all (fun t => ok s t t) ts.
Definition has_valid_cov_caller (s : caller) (X Y : ty) : bool :=
  match X, Y with
  | TVar ts, TVar us => valid_for_all_variants s ts && valid_for_all_variants s us
  | _, _ => ok s X Y
  end.
(* has_valid_variant_cov_caller, traits.hpp:157-192 *)
Definition has_valid_variant_cov_caller (s : caller) (A : ty) (ts : seq ty) : bool :=
  has (has_valid_cov_caller s A) ts.

(* ---- DirectCaller (callers.hpp:196-212) is the covariance function itself, as a [caller] whose [ok] is
   has_valid_call_impl and whose [call] is _call_impl ---- *)

(* SymmetricCaller, callers.hpp:218-248 *)
Definition symmetric_caller (s : caller) : caller :=
  {| ok := fun X Y => has_valid_cov_caller s X Y || has_valid_cov_caller s Y X;
     call := fun x y =>
       if has_valid_cov_caller s (tyof x) (tyof y) then call s x y
       else if has_valid_cov_caller s (tyof y) (tyof x) then call s y x
       else None |}.

(* which overload is chosen: the arguments as they are, or the wrapper of both, of the left or of the
   right argument taken off *)
Inductive overload := Generic | Both | Left | Right.
(* of the overloads that are enabled, an overload with a wrapper is more specialized than the generic one
   and the one with two wrappers is more specialized than those with one; two with one wrapper each are
   ambiguous *)
Definition resolve (generic both left_ right_ : bool) : option overload :=
  if both then Some Both
  else match left_, right_ with
       | true, true => None
       | true, false => Some Left
       | false, true => Some Right
       | false, false => if generic then Some Generic else None
       end.

(* MeasurementForwarder, callers.hpp:258-299 *)
Definition measurement_overload (s : caller) (X Y : ty) : option overload :=
  let v := has_valid_cov_caller s in
  resolve
    (v X Y)
    (match X, Y with TMeas a, TMeas b => v a b && ~~ v X Y | _, _ => false end)
    (match X with TMeas a => v a Y && ~~ v X Y | _ => false end)
    (match Y with TMeas b => v X b && ~~ v X Y | _ => false end).
Definition unwrap (x : val) : val := if x is VMeas v then v else x.
Definition measurement_forwarder (s : caller) : caller :=
  {| ok := fun X Y => isSome (measurement_overload s X Y);
     call := fun x y =>
       match measurement_overload s (tyof x) (tyof y) with
       | Some Generic => call s x y
       | Some Both => call s (unwrap x) (unwrap y)
       | Some Left => call s (unwrap x) y
       | Some Right => call s x (unwrap y)
       | None => None
       end |}.

(* the loops  sum += coefficients[i] * call(values[i])  of callers.hpp:350-374 and 386-395 *)
Fixpoint weighted_sum (f : val -> option F) (terms : seq (F * val)) (sum : F) : option F :=
  match terms with
  | [::] => Some sum
  | (c, v) :: rest => if f v is Some k then weighted_sum f rest (sum + c * k) else None
  end.
Definition terms_of (x : val) : seq (F * val) := if x is VLin _ terms then terms else [::].
(* one row of compute_covariance_matrix, callers.hpp:38-61, times the coefficients of the columns *)
Fixpoint row_dot (f : val -> option F) (terms : seq (F * val)) : option F :=
  match terms with
  | [::] => Some 0
  | (c, v) :: rest =>
      match f v, row_dot f rest with Some k, Some r => Some (k * c + r) | _, _ => None end
  end.
(* xs.coefficients.dot(mat * ys.coefficients), callers.hpp:335-344 *)
Fixpoint bilinear (f : val -> val -> option F) (xs ys : seq (F * val)) : option F :=
  match xs with
  | [::] => Some 0
  | (c, x) :: rest =>
      match row_dot (f x) ys, bilinear f rest ys with Some r, Some b => Some (c * r + b) | _, _ => None end
  end.

(* LinearCombinationCaller, callers.hpp:321-374 *)
Definition lincomb_overload (s : caller) (X Y : ty) : option overload :=
  let v := has_valid_cov_caller s in
  resolve
    (v X Y)
    (match X, Y with TLin a, TLin b => v a b | _, _ => false end)
    (match X with TLin a => v a Y | _ => false end)
    (match Y with TLin b => v X b | _ => false end).
Definition linear_combination_caller (s : caller) : caller :=
  {| ok := fun X Y => isSome (lincomb_overload s X Y);
     call := fun x y =>
       match lincomb_overload s (tyof x) (tyof y) with
       | Some Generic => call s x y
       | Some Both => bilinear (call s) (terms_of x) (terms_of y)
       | Some Left => weighted_sum (fun v => call s v y) (terms_of x) 0
       | Some Right => weighted_sum (call s x) (terms_of y) 0
       | None => None
       end |}.

(* CallVisitor, callers.hpp:436-458: 0 for the alternatives the function is not defined for *)
Definition call_visitor (s : caller) (x y : val) : option F :=
  if has_valid_cov_caller s (tyof x) (tyof y) then call s x y else Some 0.
(* VariantForwarder, callers.hpp:419-497. A feature type is not a variant of variants. The lambda for two
   variants is compiled for every alternative of the first, so each must be callable with the second. *)
Definition variant_forwarder (s : caller) : caller :=
  {| ok := fun X Y =>
       match X, Y with
       | TVar ts, TVar us => has_valid_cov_caller s X Y
       | TVar ts, _ => has_valid_variant_cov_caller s Y ts
       | _, TVar us => has_valid_variant_cov_caller s X us
       | _, _ => has_valid_cov_caller s X Y
       end;
     call := fun x y =>
       match x, y with
       | VVar ts x', VVar us y' =>
           if has_valid_cov_caller s (TVar ts) (TVar us)
              && all (fun t => has_valid_variant_cov_caller s t us) ts
           then call_visitor s x' y' else None
       | VVar ts x', _ => if has_valid_variant_cov_caller s (tyof y) ts then call_visitor s y x' else None
       | _, VVar us y' => if has_valid_variant_cov_caller s (tyof x) us then call_visitor s x y' else None
       | _, _ => if has_valid_cov_caller s (tyof x) (tyof y) then call s x y else None
       end |}.

(* DefaultCaller, callers.hpp:551-553, and EquivalentCaller, 587-588 *)
Definition default_caller (c : caller) : caller :=
  variant_forwarder (measurement_forwarder (linear_combination_caller
    (variant_forwarder (symmetric_caller c)))).
Definition equivalent_caller (c : caller) : caller := measurement_forwarder (symmetric_caller c).

(* CovarianceFunction::operator()(x, y), covariance_function.hpp:75-77 and 118-123: enabled by
   has_valid_caller *)
Definition cov_call (c : caller) (x y : val) : option F :=
  if ok (default_caller c) (tyof x) (tyof y) then call (default_caller c) x y else None.
(* CovarianceFunction::diagonal, covariance_function.hpp:156-168, and the covariance matrix of a list
   (callers.hpp:38-61) as rows *)
Fixpoint all_some (T : Type) (l : seq (option T)) : option (seq T) :=
  match l with
  | [::] => Some [::]
  | o :: rest => match o, all_some rest with Some x, Some r => Some (x :: r) | _, _ => None end
  end.
Definition diagonal (c : caller) (xs : seq val) : option (seq F) :=
  all_some [seq cov_call c x x | x <- xs].

(* SumOfCovarianceFunctions::_call_impl, covariance_function.hpp:266-294 *)
Definition sum_of (l r : caller) : caller :=
  {| ok := fun X Y => ok (equivalent_caller l) X Y || ok (equivalent_caller r) X Y;
     call := fun x y =>
       match ok (equivalent_caller l) (tyof x) (tyof y), ok (equivalent_caller r) (tyof x) (tyof y) with
       | true, true => match cov_call l x y, cov_call r x y with
                       | Some a, Some b => Some (a + b) | _, _ => None end
       | true, false => cov_call l x y
       | false, true => cov_call r x y
       | false, false => None
       end |}.

(* output = lhs(x, y); if (output != 0.) output *= rhs(x, y) *)
Definition times (l r : option F) : option F :=
  match l, r with Some a, Some b => Some (if a != 0 then a * b else a) | _, _ => None end.
(* ProductOfCovarianceFunctions::_call_impl, covariance_function.hpp:357-389 *)
Definition product_of (l r : caller) : caller :=
  {| ok := fun X Y => ok (equivalent_caller l) X Y || ok (equivalent_caller r) X Y;
     call := fun x y =>
       match ok (equivalent_caller l) (tyof x) (tyof y), ok (equivalent_caller r) (tyof x) (tyof y) with
       | true, true => times (cov_call l x y) (cov_call r x y)
       | true, false => cov_call l x y
       | false, true => cov_call r x y
       | false, false => None
       end |}.

(* MeasurementOnly::_call_impl, measurement.hpp:87-102; the version for two measurements is the more
   specialized one *)
Definition measurement_only (sub : caller) : caller :=
  let specific X Y := match X, Y with TMeas a, TMeas b => ok sub a b | _, _ => false end in
  {| ok := fun X Y => ok sub X Y || specific X Y;
     call := fun x y =>
       if specific (tyof x) (tyof y) then cov_call sub (unwrap x) (unwrap y)
       else if ok sub (tyof x) (tyof y) then Some 0
       else None |}.

(* a ScalingFunction, scaling_function.hpp:18-26 *)
Record scaling := Scaling { scales : ty -> bool; scale : val -> F }.
(* ScalingTerm::_call_impl, scaling_function.hpp:79-108 *)
Definition scaling_term (f : scaling) : caller :=
  {| ok := fun X Y => scales f X || scales f Y;
     call := fun x y =>
       match scales f (tyof x), scales f (tyof y) with
       | true, true => Some (scale f x * scale f y)
       | false, true => Some (scale f y)
       | true, false => Some (scale f x)
       | false, false => None
       end |}.
(* scaling_term * other, scaling_function.hpp:117-172 *)
Definition scaled_left (f : scaling) (r : caller) : caller :=
  let l := scaling_term f in
  {| ok := fun X Y => ok (equivalent_caller r) X Y;
     call := fun x y =>
       match ok (equivalent_caller l) (tyof x) (tyof y), ok (equivalent_caller r) (tyof x) (tyof y) with
       | true, true => times (cov_call l x y) (cov_call r x y)
       | false, true => cov_call r x y
       | _, false => None
       end |}.
(* other * scaling_term, scaling_function.hpp:177-232 *)
Definition scaled_right (l : caller) (f : scaling) : caller :=
  let r := scaling_term f in
  {| ok := fun X Y => ok (equivalent_caller l) X Y;
     call := fun x y =>
       match ok (equivalent_caller l) (tyof x) (tyof y), ok (equivalent_caller r) (tyof x) (tyof y) with
       | true, true => times (cov_call l x y) (cov_call r x y)
       | true, false => cov_call l x y
       | false, _ => None
       end |}.

(* Constant::_call_impl, polynomials.hpp:56-60: a template defined for every pair of types *)
Definition constant (sigma : F) : caller :=
  {| ok := fun _ _ => true; call := fun _ _ => Some (sigma * sigma) |}.
(* a class with _call_impl for some pairs of user classes (every other covariance function of the
   library is one: SquaredExponential and friends, IndependentNoise, Nugget, Polynomial) *)
Definition on_classes (defined : nat -> nat -> bool) (k : nat -> P -> nat -> P -> F) : caller :=
  {| ok := fun X Y => match X, Y with TBase a, TBase b => defined a b | _, _ => false end;
     call := fun x y => match x, y with
                        | VBase a p, VBase b q => if defined a b then Some (k a p b q) else None
                        | _, _ => None
                        end |}.

(* a covariance function built with +, *, measurement_only and scaling terms *)
Inductive cov_expr :=
| Leaf (defined : nat -> nat -> bool) (k : nat -> P -> nat -> P -> F)
| Sum (l r : cov_expr)
| Product (l r : cov_expr)
| OnlyMeasured (e : cov_expr)
| ScaledL (f : nat -> bool) (s : nat -> P -> F) (e : cov_expr)
| ScaledR (e : cov_expr) (f : nat -> bool) (s : nat -> P -> F).

(* a ScalingFunction with _call_impl for some user classes *)
Definition scaling_on (f : nat -> bool) (s : nat -> P -> F) : scaling :=
  {| scales := fun X => if X is TBase a then f a else false;
     scale := fun x => if x is VBase a p then s a p else 0 |}.
Fixpoint build (e : cov_expr) : caller :=
  match e with
  | Leaf defined k => on_classes defined k
  | Sum l r => sum_of (build l) (build r)
  | Product l r => product_of (build l) (build r)
  | OnlyMeasured e => measurement_only (build e)
  | ScaledL f s e => scaled_left (scaling_on f s) (build e)
  | ScaledR e f s => scaled_right (build e) (scaling_on f s)
  end.

(* ---- mean functions ---- *)
Record mcaller := MCaller { mok : ty -> bool; mcall : val -> option F }.
(* MeasurementForwarder, callers.hpp:301-318 *)
Definition m_measurement (s : mcaller) : mcaller :=
  let unwraps X := if X is TMeas a then mok s a && ~~ mok s X else false in
  {| mok := fun X => mok s X || unwraps X;
     mcall := fun x => if unwraps (tyof x) then mcall s (unwrap x)
                       else if mok s (tyof x) then mcall s x else None |}.
(* LinearCombinationCaller, callers.hpp:375-395 *)
Definition m_lincomb (s : mcaller) : mcaller :=
  let splits X := if X is TLin a then mok s a else false in
  {| mok := fun X => mok s X || splits X;
     mcall := fun x => if splits (tyof x) then weighted_sum (mcall s) (terms_of x) 0
                       else if mok s (tyof x) then mcall s x else None |}.
(* VariantForwarder, callers.hpp:499-543, has_valid_variant_mean_caller, traits.hpp:204-223 *)
Definition m_variant (s : mcaller) : mcaller :=
  {| mok := fun X => if X is TVar ts then has (mok s) ts else mok s X;
     mcall := fun x =>
       if x is VVar ts x' then
         if has (mok s) ts then (if mok s (tyof x') then mcall s x' else Some 0) else None
       else if mok s (tyof x) then mcall s x else None |}.
(* DefaultCaller, callers.hpp:551-553; the symmetric and direct callers pass the argument on *)
Definition m_default (m : mcaller) : mcaller := m_variant (m_measurement (m_lincomb (m_variant m))).
(* MeanFunction::operator()(x), mean_function.hpp:31-33 and 66-70 *)
Definition mean_call (m : mcaller) (x : val) : option F :=
  if mok (m_default m) (tyof x) then mcall (m_default m) x else None.
(* SumOfMeanFunctions::_call_impl, mean_function.hpp:169-197 *)
Definition m_sum_of (l r : mcaller) : mcaller :=
  {| mok := fun X => mok (m_default l) X || mok (m_default r) X;
     mcall := fun x =>
       match mok (m_default l) (tyof x), mok (m_default r) (tyof x) with
       | true, true => match mean_call l x, mean_call r x with
                       | Some a, Some b => Some (a + b) | _, _ => None end
       | true, false => mean_call l x
       | false, true => mean_call r x
       | false, false => None
       end |}.
(* ProductOfMeanFunctions::_call_impl, mean_function.hpp:234-266 *)
Definition m_product_of (l r : mcaller) : mcaller :=
  {| mok := fun X => mok (m_default l) X || mok (m_default r) X;
     mcall := fun x =>
       match mok (m_default l) (tyof x), mok (m_default r) (tyof x) with
       | true, true => times (mean_call l x) (mean_call r x)
       | true, false => mean_call l x
       | false, true => mean_call r x
       | false, false => None
       end |}.
(* a class with _call_impl for some user classes *)
Definition m_on_classes (defined : nat -> bool) (m : nat -> P -> F) : mcaller :=
  {| mok := fun X => if X is TBase a then defined a else false;
     mcall := fun x => if x is VBase a p then (if defined a then Some (m a p) else None) else None |}.
Inductive mean_expr :=
| MLeaf (defined : nat -> bool) (m : nat -> P -> F)
| MSum (l r : mean_expr)
| MProduct (l r : mean_expr).
Fixpoint m_build (e : mean_expr) : mcaller :=
  match e with
  | MLeaf defined m => m_on_classes defined m
  | MSum l r => m_sum_of (m_build l) (m_build r)
  | MProduct l r => m_product_of (m_build l) (m_build r)
  end.

(* ---- linear combinations, core/linear_combination.hpp ---- *)
(* sum, mean, difference of features of one type, to_linear_combination, 46-50, 58-70, 82-89 *)
Definition lc_sum (x y : val) : val := VLin (tyof x) [:: (1, x); (1, y)].
Definition lc_difference (x y : val) : val := VLin (tyof x) [:: (1, x); (-1, y)].
Definition lc_mean (t : ty) (xs : seq val) : val := VLin t [seq ((size xs)%:R^-1, x) | x <- xs].
Definition to_linear_combination (x : val) : val :=
  if x is VLin _ _ then x else VLin (tyof x) [:: (1, x)].

(* a sparse matrix: its number of rows and its stored entries (row, column, value) in the order
   Eigen::SparseMatrix::InnerIterator visits them *)
Record sparse := Sparse { s_rows : nat; s_cols : nat; s_entries : seq (nat * nat * F) }.
(* output[row].values.push_back(..), output_coefs[row].push_back(..) *)
Fixpoint push_at (row : nat) (new : seq (F * val)) (output : seq (seq (F * val))) : seq (seq (F * val)) :=
  match output, row with
  | [::], _ => [::]
  | o :: rest, 0%N => (o ++ new) :: rest
  | o :: rest, S i => o :: push_at i new rest
  end.
(* sparse * features, 93-115 and, for features that are linear combinations, 117-146. features[col] is
   not bounds checked: None. *)
Definition entry_terms (v : F) (f : val) : seq (F * val) :=
  if f is VLin _ terms then [seq (v * cw.1, cw.2) | cw <- terms] else [:: (v, f)].
Fixpoint multiply (entries : seq (nat * nat * F)) (features : seq val) (output : seq (seq (F * val)))
    : option (seq (seq (F * val))) :=
  match entries with
  | [::] => Some output
  | (row, col, v) :: rest =>
      match List.nth_error features col with
      | Some f => multiply rest features (push_at row (entry_terms v f) output)
      | None => None
      end
  end.
Definition sparse_times (t : ty) (m : sparse) (features : seq val) : option (seq val) :=
  omap (map (VLin t)) (multiply (s_entries m) features (nseq (s_rows m) [::])).
(* dense * features, 148-153: matrix.sparseView() keeps the entries that are not 0, column by column *)
Definition sparse_view n p (M : 'M[F]_(n, p)) : sparse :=
  Sparse n p [seq (nat_of_ord ij.2, nat_of_ord ij.1, M ij.2 ij.1)
             | ij <- [seq (j, i) | j <- enum 'I_p, i <- enum 'I_n] & M ij.2 ij.1 != 0].
Definition dense_times (t : ty) n p (M : 'M[F]_(n, p)) (features : seq val) : option (seq val) :=
  sparse_times t (sparse_view M) features.
End Callers.
