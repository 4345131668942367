(* What a covariance or mean function built from others should mean: vocabulary of C50, C54 and C55. *)
From mathcomp Require Import all_ssreflect all_algebra.
From Verif Require Import GpSpec CallerModel.
Set Implicit Arguments.
Unset Strict Implicit.
Unset Printing Implicit Defensive.
Import GRing.Theory Num.Theory.
Local Open Scope ring_scope.

Section Spec.
Variable F : fieldType.
Variable P : Type.
Notation expr := (cov_expr F P).
Notation val := (val F P).
Notation point := (nat * P)%type.      (* a class and an object of that class *)

(* is the covariance of objects of the classes a and b defined? *)
Fixpoint defined_on (e : expr) (a b : nat) : bool :=
  match e with
  | Leaf d _ => d a b || d b a
  | Sum l r | Product l r => defined_on l a b || defined_on r a b
  | OnlyMeasured e | ScaledL _ _ e | ScaledR e _ _ => defined_on e a b
  end.

(* the factor a scaling function puts on an object: 1 for classes it does not know *)
Definition weight (f : nat -> bool) (s : nat -> P -> F) (x : point) : F := if f x.1 then s x.1 x.2 else 1.

(* the covariance of two objects, 0 where it is not defined; [measured]: both are measurements *)
Fixpoint meaning (e : expr) (measured : bool) (x y : point) : F :=
  match e with
  | Leaf d k => if d x.1 y.1 then k x.1 x.2 y.1 y.2 else if d y.1 x.1 then k y.1 y.2 x.1 x.2 else 0
  | Sum l r => meaning l measured x y + meaning r measured x y
  | Product l r =>
      match defined_on l x.1 y.1, defined_on r x.1 y.1 with
      | true, true => meaning l measured x y * meaning r measured x y
      | true, false => meaning l measured x y
      | false, true => meaning r measured x y
      | false, false => 0
      end
  | OnlyMeasured e => if measured then meaning e false x y else 0
  | ScaledL f s e | ScaledR e f s => weight f s x * meaning e measured x y * weight f s y
  end.

(* where a leaf is written for both orders of its arguments, the two agree *)
Fixpoint leaves_symmetric (e : expr) : Prop :=
  match e with
  | Leaf d k => forall a p b q, d a b -> d b a -> k a p b q = k b q a p
  | Sum l r | Product l r => leaves_symmetric l /\ leaves_symmetric r
  | OnlyMeasured e | ScaledL _ _ e | ScaledR e _ _ => leaves_symmetric e
  end.
Fixpoint scaling_free (e : expr) : bool :=
  match e with
  | Leaf _ _ => true
  | Sum l r | Product l r => scaling_free l && scaling_free r
  | OnlyMeasured e => scaling_free e
  | ScaledL _ _ _ | ScaledR _ _ _ => false
  end.
Fixpoint measurement_free (e : expr) : bool :=
  match e with
  | Leaf _ _ => true
  | Sum l r | Product l r => measurement_free l && measurement_free r
  | OnlyMeasured _ => false
  | ScaledL _ _ e | ScaledR e _ _ => measurement_free e
  end.

(* ---- features ---- *)
(* an object of a user class, or a variant of user classes holding one *)
Inductive atom : val -> Prop :=
| AtomBase b p : atom (VBase F b p)
| AtomVar bs b p : b \in bs -> atom (VVar (map TBase bs) (VBase F b p)).
(* a list of (coefficient, value) with values of type t that satisfy Q *)
Fixpoint terms_ok (Q : val -> Prop) (t : ty) (terms : seq (F * val)) : Prop :=
  match terms with [::] => True | (_, v) :: rest => (Q v /\ tyof v = t) /\ terms_ok Q t rest end.
(* t is a user class, or a variant of user classes *)
Definition atom_type (t : ty) : Prop := (exists b, t = TBase b) \/ exists bs, t = TVar (map TBase bs).

(* the features that are not variants: x, Measurement<x>, a linear combination of objects or of variants,
   a measurement of one *)
Inductive plain : val -> Prop :=
| PlainBase b p : plain (VBase F b p)
| PlainMeas b p : plain (VMeas (VBase F b p))
| PlainLin t terms : atom_type t -> terms_ok atom t terms -> plain (VLin t terms)
| PlainMeasLin t terms : atom_type t -> terms_ok atom t terms -> plain (VMeas (VLin t terms)).

(* features made of objects of one class *)
Definition is_class_object (v : val) : Prop := exists b p, v = VBase F b p.
Inductive over_class (b : nat) : val -> Prop :=
| OverBase p : over_class b (VBase F b p)
| OverMeas p : over_class b (VMeas (VBase F b p))
| OverLin terms : terms_ok is_class_object (TBase b) terms -> over_class b (VLin (TBase b) terms)
| OverMeasLin terms : terms_ok is_class_object (TBase b) terms -> over_class b (VMeas (VLin (TBase b) terms)).
(* the class of such a feature, from its type *)
Definition class_of_type (t : ty) : option nat :=
  match t with
  | TBase b | TMeas (TBase b) | TLin (TBase b) | TMeas (TLin (TBase b)) => Some b
  | _ => None
  end.
(* the classes of the alternatives of a variant *)
Definition alternatives (ts : seq ty) (classes : seq nat) : Prop :=
  [seq class_of_type t | t <- ts] = [seq Some a | a <- classes].

(* a feature as a linear combination of objects, each marked as measured or not. The code takes the
   Measurement wrapper off a linear combination without marking the parts (see
   C55_combination_noise_refuted), and so does this. *)
Fixpoint expand (v : val) : seq (F * (bool * point)) :=
  match v with
  | VBase b p => [:: (1, (false, (b, p)))]
  | VMeas w => if w is VBase b p then [:: (1, (true, (b, p)))] else expand w
  | VLin _ terms =>
      (fix go (terms : seq (F * val)) :=
         match terms with
         | [::] => [::]
         | (c, w) :: rest => [seq (c * a.1, a.2) | a <- expand w] ++ go rest
         end) terms
  | VVar _ w => expand w
  end.
Definition flags (v : val) : seq bool := [seq a.2.1 | a <- expand v].
(* both features are made of measurements, or neither is *)
Definition same_flags (x y : val) : bool := all (fun f => all (eqb f) (flags y)) (flags x).
Definition scaling_respected (e : expr) (x y : val) : bool := scaling_free e || same_flags x y.

(* the covariance of two features: linear in both *)
Definition covariance (e : expr) (x y : val) : F :=
  \sum_(a <- expand x) \sum_(b <- expand y) a.1 * b.1 * meaning e (a.2.1 && b.2.1) a.2.2 b.2.2.

(* ---- mean functions ---- *)
Fixpoint m_defined_on (e : mean_expr F P) (a : nat) : bool :=
  match e with
  | MLeaf d _ => d a
  | MSum l r | MProduct l r => m_defined_on l a || m_defined_on r a
  end.
Fixpoint m_meaning (e : mean_expr F P) (x : point) : F :=
  match e with
  | MLeaf d m => if d x.1 then m x.1 x.2 else 0
  | MSum l r => m_meaning l x + m_meaning r x
  | MProduct l r =>
      match m_defined_on l x.1, m_defined_on r x.1 with
      | true, true => m_meaning l x * m_meaning r x
      | true, false => m_meaning l x
      | false, true => m_meaning r x
      | false, false => 0
      end
  end.
Definition mean_of (e : mean_expr F P) (x : val) : F := \sum_(a <- expand x) a.1 * m_meaning e a.2.2.
Fixpoint product_free (e : mean_expr F P) : bool :=
  match e with MLeaf _ _ => true | MSum l r => product_free l && product_free r | MProduct _ _ => false end.

(* the classes of the objects in a feature that is not a variant, from its type *)
Definition classes_of (t : ty) : seq nat :=
  let base t := if t is TBase a then [:: a] else [::] in
  let atom t := if t is TVar ts then flatten (map base ts) else base t in
  match t with TMeas (TLin t) | TLin t => atom t | TMeas t => base t | _ => base t end.
Definition measured_combination (x : val) : bool := if x is VMeas (VLin _ _) then true else false.

(* what a matrix may be multiplied with: objects or variants of one type t, or linear combinations of
   them *)
Inductive factor (t : ty) (f : val) : Prop :=
| FactorAtom : atom f -> tyof f = t -> factor t f
| FactorLin terms : f = VLin t terms -> terms_ok atom t terms -> factor t f.
(* the entry of a sparse matrix: duplicates would be added up *)
Definition entry (m : sparse F) (i j : nat) : F :=
  \sum_(e <- s_entries m | (e.1.1 == i) && (e.1.2 == j)) e.2.
End Spec.

Section Psd.
Variable F : realFieldType.
Variable P : Type.
Notation point := (nat * P)%type.
(* a leaf is a positive semi-definite kernel over the objects it is defined for *)
Definition leaf_psd (d : nat -> nat -> bool) (k : nat -> P -> nat -> P -> F) : Prop :=
  forall n (x : 'I_n -> point), psd (\matrix_(i, j) meaning (Leaf d k) false (x i) (x j)).
Fixpoint leaves_psd (e : cov_expr F P) : Prop :=
  match e with
  | Leaf d k => leaf_psd d k
  | Sum l r | Product l r => leaves_psd l /\ leaves_psd r
  | OnlyMeasured e | ScaledL _ _ e | ScaledR e _ _ => leaves_psd e
  end.
(* the leaves are, and the two factors of every product are defined for the same classes *)
Fixpoint psd_built (e : cov_expr F P) : Prop :=
  match e with
  | Leaf d k => leaf_psd d k
  | Sum l r => psd_built l /\ psd_built r
  | Product l r => psd_built l /\ psd_built r /\ (forall a b, defined_on l a b = defined_on r a b)
  | OnlyMeasured e | ScaledL _ _ e | ScaledR e _ _ => psd_built e
  end.
End Psd.
