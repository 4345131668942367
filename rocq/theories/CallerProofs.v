(* Proofs about the dispatch of covariance functions, for one object or measurement of an object per
   argument. *)
From mathcomp Require Import all_ssreflect all_algebra.
From Verif Require Import GpSpec CallerModel CallerSpec.
Set Implicit Arguments.
Unset Strict Implicit.
Unset Printing Implicit Defensive.
Import GRing.Theory.
Local Open Scope ring_scope.

Section Proofs.
Variable F : fieldType.
Variable P : Type.
Notation caller := (caller F P).
Notation point := (nat * P)%type.

Definition T (f : bool) (a : nat) : ty := if f then TMeas (TBase a) else TBase a.
Definition V (f : bool) (x : point) : val F P := if f then VMeas (VBase F x.1 x.2) else VBase F x.1 x.2.
Lemma tyV f x : tyof (V f x) = T f x.1.
Proof. by case: f. Qed.

Fixpoint spine (t : ty) : bool := match t with TBase _ | TVar _ => true | TMeas t => spine t | TLin _ => false end.

Record models (c : caller) (D : nat -> nat -> bool) (d : bool -> point -> point -> F) (mx : bool) : Prop := Models {
  m_plain : forall X Y, ok c X Y -> spine X && spine Y;
  m_sym : forall a b, D a b = D b a;
  m_sound : forall f g a b, ok c (T f a) (T g b) -> D a b;
  m_complete : forall a b, D a b -> ok c (T false a) (T false b) || ok c (T false b) (T false a);
  m_mm : forall a b, ok c (T true a) (T true b) -> ok c (T false a) (T false b);
  m_mixed : (forall f g a b, ok c (T f a) (T g b) = D a b) \/
            (forall a b, ok c (T true a) (T false b) = false /\ ok c (T false a) (T true b) = false);
  m_value : forall f g x y, mx || (f == g) -> ok (symmetric_caller c) (T f x.1) (T g y.1) ->
              call (symmetric_caller c) (V f x) (V g y) = Some (d (f && g) x y);
  m_untouched : forall x y, D x.1 y.1 -> ~~ ok (symmetric_caller c) (T true x.1) (T true y.1) -> d true x y = d false x y;
  m_dsym : forall m x y, d m x y = d m y x;
  m_undef : forall m x y, ~~ D x.1 y.1 -> d m x y = 0
}.

Lemma models_weaken c D d mx : models c D d true -> models c D d mx.
Proof. by case=> *; split => // f g x y _; auto. Qed.

Lemma hvT (s : caller) f g a b : has_valid_cov_caller s (T f a) (T g b) = ok s (T f a) (T g b).
Proof. by case: f; case: g. Qed.
Lemma hv_spine c D d mx X Y : models c D d mx -> has_valid_cov_caller c X Y -> spine X && spine Y.
Proof.
move=> M; case: X => [a|t|t|ts]; case: Y => [b|u|u|us] //=; try exact: (m_plain M).
Qed.

(* the measurement forwarder over something that agrees with the symmetric caller *)
Section Layer.
Variables (c : caller) (D : nat -> nat -> bool) (d : bool -> point -> point -> F) (mx : bool) (M : models c D d mx).
Variable s : caller.
Hypothesis s_ok : forall f g a b, ok s (T f a) (T g b) = ok (symmetric_caller c) (T f a) (T g b).
Hypothesis s_call : forall f g x y, ok (symmetric_caller c) (T f x.1) (T g y.1) ->
  call s (V f x) (V g y) = call (symmetric_caller c) (V f x) (V g y).

Lemma sym_sound f g a b : ok (symmetric_caller c) (T f a) (T g b) -> D a b.
Proof. by rewrite /= !hvT => /orP[/(m_sound M)|/(m_sound M)] //; rewrite (m_sym M). Qed.
Lemma sym_base a b : ok (symmetric_caller c) (T false a) (T false b) = D a b.
Proof. by apply/idP/idP => [/sym_sound|/(m_complete M)] //; rewrite /= . Qed.

Definition vfacts (v : ty -> ty -> bool) (a b : nat) : Prop :=
  v (TBase a) (TBase b) = D a b /\ forall f g, v (T f a) (T g b) -> D a b.
Lemma vfactsP a b : vfacts (has_valid_cov_caller s) a b.
Proof.
split=> [|f g]; first by rewrite -[TBase a]/(T false a) -[TBase b]/(T false b) hvT s_ok sym_base.
by rewrite hvT s_ok => /sym_sound.
Qed.

Lemma meas_ok f g a b : ok (measurement_forwarder s) (T f a) (T g b) = D a b.
Proof.
rewrite /measurement_forwarder /ok /measurement_overload.
move: (has_valid_cov_caller s) (vfactsP a b) => v [v0 vs].
have := vs true true; have := vs true false; have := vs false true.
case: f; case: g => /=; rewrite v0.
- case: (v (TMeas _) (TMeas _)) => h1 h2 h3; first by rewrite h3 // !andbF /=.
  by rewrite !andbT; case: (D a b) h1 h2 {h3} => //=; case: (v _ _) => [/(_ isT)|_] //; case: (v _ _) => [/(_ isT)|_].
- by case: (v (TMeas _) (TBase _)) => h1 h2 h3; [rewrite h2|case: (D a b)].
- by case: (v (TBase _) (TMeas _)) => h1 h2 h3; [rewrite h1|case: (D a b)].
- by case: (D a b).
Qed.

Lemma meas_call f g x y : mx || (f == g) ->
  call (measurement_forwarder s) (V f x) (V g y) = if D x.1 y.1 then Some (d (f && g) x y) else None.
Proof.
move=> fr; case: x fr => a p; case: y => b q fr.
have val0 : D a b -> call s (VBase F a p) (VBase F b q) = Some (d false (a, p) (b, q)).
  move=> h; rewrite -[VBase F a p]/(V false (a, p)) -[VBase F b q]/(V false (b, q)).
  by rewrite s_call ?sym_base // (m_value M) ?orbT // sym_base.
have valg : has_valid_cov_caller s (T f a) (T g b) -> call s (V f (a, p)) (V g (b, q)) = Some (d (f && g) (a, p) (b, q)).
  by rewrite hvT s_ok => h; rewrite s_call // (m_value M).
have unt : D a b -> ~~ has_valid_cov_caller s (T true a) (T true b) -> d true (a, p) (b, q) = d false (a, p) (b, q).
  by rewrite hvT s_ok => h h2; exact: (m_untouched M (x := (a, p)) (y := (b, q))).
rewrite /measurement_forwarder /call -/(@call F P s) !tyV /measurement_overload /=.
move: (has_valid_cov_caller s) (vfactsP a b) valg unt => v [v0 vs].
have := vs true true; have := vs true false; have := vs false true.
case: f fr; case: g => fr /=; rewrite v0.
- case: (v (TMeas _) (TMeas _)) => h1 h2 h3 valg unt; first by rewrite h3 // !andbF /= valg.
  rewrite !andbT; case dd: (D a b) h1 h2 unt {h3} => h1 h2 unt /=; first by rewrite val0 // unt.
  by case: (v _ _) h1 => [/(_ isT)|_] //; case: (v _ _) h2 => [/(_ isT)|_].
- case: (v (TMeas _) (TBase _)) => h1 h2 h3 valg unt; first by rewrite h2 //= valg.
  by case dd: (D a b) => //=; rewrite val0.
- case: (v (TBase _) (TMeas _)) => h1 h2 h3 valg unt; first by rewrite h1 //= valg.
  by case dd: (D a b) => //=; rewrite val0.
- by case dd: (D a b) => //=; rewrite val0.
Qed.
End Layer.

Lemma lin_pass (s : caller) f g a b :
  lincomb_overload s (T f a) (T g b) = if ok s (T f a) (T g b) then Some Generic else None.
Proof. by rewrite /lincomb_overload hvT; case: f; case: g. Qed.
Lemma var_ok (s : caller) f g a b : ok (variant_forwarder s) (T f a) (T g b) = ok s (T f a) (T g b).
Proof. by rewrite -hvT; case: f; case: g. Qed.
Lemma var_call (s : caller) f g x y :
  call (variant_forwarder s) (V f x) (V g y) = if ok s (T f x.1) (T g y.1) then call s (V f x) (V g y) else None.
Proof. by rewrite -hvT; case: f; case: g. Qed.

Section Calls.
Variables (c : caller) (D : nat -> nat -> bool) (d : bool -> point -> point -> F) (mx : bool) (M : models c D d mx).

Lemma eqv_ok f g a b : ok (equivalent_caller c) (T f a) (T g b) = D a b.
Proof. exact: (meas_ok M). Qed.

Lemma inner_ok f g a b :
  ok (linear_combination_caller (variant_forwarder (symmetric_caller c))) (T f a) (T g b) = ok (symmetric_caller c) (T f a) (T g b).
Proof.
rewrite {1}/linear_combination_caller {1}/ok lin_pass var_ok.
by case: (ok _ _ _).
Qed.
Lemma inner_call f g x y : ok (symmetric_caller c) (T f x.1) (T g y.1) ->
  call (linear_combination_caller (variant_forwarder (symmetric_caller c))) (V f x) (V g y) =
  call (symmetric_caller c) (V f x) (V g y).
Proof.
move=> h; rewrite {1}/linear_combination_caller {1}/call !tyV lin_pass var_ok h.
by rewrite -/(call (variant_forwarder (symmetric_caller c)) (V f x) (V g y)) var_call h.
Qed.
Lemma default_ok f g a b : ok (default_caller c) (T f a) (T g b) = D a b.
Proof. by rewrite /default_caller var_ok (meas_ok M) // => f' g' a' b'; exact: inner_ok. Qed.
Lemma default_call f g x y : mx || (f == g) ->
  cov_call c (V f x) (V g y) = if D x.1 y.1 then Some (d (f && g) x y) else None.
Proof.
move=> fr; rewrite /cov_call !tyV default_ok /default_caller var_call.
rewrite (meas_ok M inner_ok) (meas_call M inner_ok inner_call x y fr).
by case: (D _ _).
Qed.
Lemma eqv_plain X Y : ok (equivalent_caller c) X Y -> spine X && spine Y.
Proof.
have hs A B : has_valid_cov_caller (symmetric_caller c) A B -> spine A && spine B.
  have h0 : ok (symmetric_caller c) A B -> spine A && spine B.
    by case/orP => /(hv_spine M) //; rewrite andbC.
  by case: A h0 => [a|t|t|ts]; case: B => [b|u|u|us].
rewrite /= /measurement_overload /resolve.
case: ifP => [|_].
  by case: X => // a; case: Y => // b /andP[/hs].
case: ifP => [|_].
  by case: X => // a /andP[/hs /andP[sa sb] _] _; rewrite /= sa sb.
case: ifP => [|_].
  by case: Y => // b /andP[/hs /andP[sa sb] _] _; rewrite /= sa sb.
by case: ifP => // /hs.
Qed.
End Calls.

(* ---- the covariance functions ---- *)
Lemma leaf_models d (k : nat -> P -> nat -> P -> F) :
  leaves_symmetric (Leaf d k) ->
  models (on_classes d k) (defined_on (Leaf d k)) (meaning (Leaf d k)) true.
Proof.
move=> sy; split.
- by case=> // a; case.
- by move=> a b /=; rewrite orbC.
- by move=> [] [] a b //= ->.
- by [].
- by [].
- by right.
- move=> [] [] [a p] [b q] _ //= /orP[e|e]; rewrite ?e //.
  by case: (d a b) (sy a p b q) => // ->.
- by [].
- move=> m [a p] [b q] /=.
  by case e: (d a b); case e2: (d b a) => //; rewrite sy.
- by move=> m [a p] [b q] /=; case: (d a b) => //=; case: (d b a).
Qed.

Lemma sym_call_ok (c : caller) x y : ok c (tyof x) (tyof y) -> ~~ (is_variant (tyof x) && is_variant (tyof y)) ->
  call (symmetric_caller c) x y = call c x y.
Proof.
move=> h n; rewrite /=; have -> : has_valid_cov_caller c (tyof x) (tyof y); last by [].
by case: (tyof x) h n => [a|t|t|ts]; case: (tyof y).
Qed.
Lemma tyVn f g x y : ~~ (is_variant (tyof (V f x)) && is_variant (tyof (V g y))).
Proof. by case: f; case: g. Qed.

(* a function whose _call_impl is defined for every mix of measurements *)
Lemma all_mode_models (c : caller) D d mx :
  (forall X Y, ok c X Y -> spine X && spine Y) ->
  (forall a b, D a b = D b a) ->
  (forall f g a b, ok c (T f a) (T g b) = D a b) ->
  (forall f g x y, mx || (f == g) -> D x.1 y.1 -> call c (V f x) (V g y) = Some (d (f && g) x y)) ->
  (forall m x y, d m x y = d m y x) ->
  (forall m x y, ~~ D x.1 y.1 -> d m x y = 0) ->
  models c D d mx.
Proof.
move=> pl sy oks cl ds un; split=> //.
- by move=> f g a b; rewrite oks.
- by move=> a b; rewrite !oks => ->.
- by move=> a b; rewrite !oks.
- by left.
- move=> f g x y fr; rewrite {1}/symmetric_caller {1}/ok !hvT !oks (sy y.1) orbb => dd.
  by rewrite sym_call_ok ?tyVn // ?tyV ?oks // cl.
- move=> x y dd; rewrite {1}/symmetric_caller {1}/ok !hvT !oks dd //.
Qed.

Lemma sum_models l r Dl Dr dl dr mx :
  models l Dl dl mx -> models r Dr dr mx ->
  models (sum_of l r) (fun a b => Dl a b || Dr a b) (fun m x y => dl m x y + dr m x y) mx.
Proof.
move=> Ml Mr; apply: all_mode_models.
- by move=> X Y /= /orP[/(eqv_plain Ml)|/(eqv_plain Mr)].
- by move=> a b; rewrite (m_sym Ml) (m_sym Mr).
- by move=> f g a b; rewrite {1}/sum_of {1}/ok !(eqv_ok Ml, eqv_ok Mr).
- move=> f g x y fr; rewrite {1}/sum_of {1}/call !tyV !(eqv_ok Ml, eqv_ok Mr) !(default_call Ml, default_call Mr) //.
  have := m_undef Ml (f && g) (x := x) (y := y); have := m_undef Mr (f && g) (x := x) (y := y).
  by case: (Dl _ _); case: (Dr _ _) => //= h1 h2 _; [rewrite h1 // addr0|rewrite h2 // add0r].
- by move=> m x y; rewrite (m_dsym Ml) (m_dsym Mr).
- by move=> m x y; rewrite negb_or => /andP[h1 h2]; rewrite (m_undef Ml) // (m_undef Mr) // addr0.
Qed.

Lemma timesE (a b : F) : times (Some a) (Some b) = Some (a * b).
Proof. by rewrite /times; case: eqP => [->|_] //=; rewrite mul0r. Qed.

Lemma product_models l r Dl Dr dl dr mx :
  models l Dl dl mx -> models r Dr dr mx ->
  models (product_of l r) (fun a b => Dl a b || Dr a b)
    (fun m x y => match Dl x.1 y.1, Dr x.1 y.1 with
                  | true, true => dl m x y * dr m x y | true, false => dl m x y
                  | false, true => dr m x y | false, false => 0 end) mx.
Proof.
move=> Ml Mr; apply: all_mode_models.
- by move=> X Y /= /orP[/(eqv_plain Ml)|/(eqv_plain Mr)].
- by move=> a b; rewrite (m_sym Ml) (m_sym Mr).
- by move=> f g a b; rewrite {1}/product_of {1}/ok !(eqv_ok Ml, eqv_ok Mr).
- move=> f g x y fr; rewrite {1}/product_of {1}/call !tyV !(eqv_ok Ml, eqv_ok Mr) !(default_call Ml, default_call Mr) //.
  by case: (Dl _ _); case: (Dr _ _) => // _; rewrite timesE.
- by move=> m x y; rewrite (m_dsym Ml) (m_dsym Mr) (m_sym Ml) (m_sym Mr).
- by move=> m x y; case: (Dl _ _); case: (Dr _ _).
Qed.

Lemma measurement_only_models c D d mx :
  models c D d mx ->
  models (measurement_only c) D (fun m x y => if m then d false x y else 0) mx.
Proof.
move=> M.
have okE f g a b : ok (measurement_only c) (T f a) (T g b) = ok c (T f a) (T g b) || [&& f, g & ok c (TBase a) (TBase b)].
  by case: f; case: g; rewrite //= ?orbF.
split.
- move=> X Y /= /orP[/(m_plain M) //|].
  by case: X => // a; case: Y => // b /(m_plain M).
- exact: (m_sym M).
- move=> f g a b; rewrite okE => /orP[/(m_sound M) //|/and3P[_ _ h]].
  exact: (m_sound M (f := false) (g := false)).
- by move=> a b h; rewrite !okE /= !orbF; exact: (m_complete M).
- by move=> a b; rewrite !okE /= orbF => /orP[/(m_mm M)|].
- case: (m_mixed M) => h; [left|right].
    by move=> f g a b; rewrite okE -[TBase a]/(T false a) -[TBase b]/(T false b) !h; case: (D a b); rewrite ?orbT ?andbF.
  by move=> a b; rewrite !okE /= !orbF; exact: h.
- move=> f g x y fr.
  rewrite {1}/symmetric_caller {1}/ok !hvT !okE.
  rewrite {1}/symmetric_caller {1}/call !tyV !hvT !okE.
  have z (f' g' : bool) u v : ok c (T f' u.1) (T g' v.1) -> ~~ (f' && g') -> call (measurement_only c) (V f' u) (V g' v) = Some 0.
    move=> h n; rewrite /= !tyV h.
    by case: f' h n; case: g'.
  have w u v : ok c (TBase u.1) (TBase v.1) -> call (measurement_only c) (V true u) (V true v) = Some (d false u v).
    move=> h; rewrite /= h -[VBase F u.1 u.2]/(V false u) -[VBase F v.1 v.2]/(V false v).
    by rewrite (default_call M) ?orbT // (m_sound M (f := false) (g := false) h).
  have mm a' b' : ok c (T true a') (T true b') || ok c (TBase a') (TBase b') = ok c (TBase a') (TBase b').
    case e: (ok c (T _ _) _) => //=.
    by rewrite (m_mm M e).
  case: f fr; case: g => fr; rewrite ?andTb ?andbF ?andFb ?orbF ?mm.
  + case e: (ok c (TBase x.1) (TBase y.1)) => /orP[//h|h]; first exact: (w x y).
      by rewrite (w x y).
    by rewrite h (m_dsym M); exact: (w y x).
  + case e: (ok c (T true x.1) _); first by move=> _; rewrite (z true false x y).
    by rewrite orFb => h; rewrite h (z false true y x).
  + case e: (ok c (T false x.1) _); first by move=> _; rewrite (z false true x y).
    by rewrite orFb => h; rewrite h (z true false y x).
  + case e: (ok c (T false x.1) _); first by move=> _; rewrite (z false false x y).
    by rewrite orFb => h; rewrite h (z false false y x).
- move=> x y h; rewrite {1}/symmetric_caller {1}/ok !hvT !okE /= .
  have := m_complete M h; rewrite /= => /orP[->|->]; rewrite ?orbT //.
- by move=> [] x y //; rewrite (m_dsym M).
- by move=> [] x y //= h; rewrite (m_undef M).
Qed.

(* scaling terms, for two measurements or two objects *)
Section Scaling.
Variables (fs : nat -> bool) (s : nat -> P -> F).
Notation st := (scaling_term (scaling_on fs s)).
Lemma scaling_eqv_ok f a b : ok (equivalent_caller st) (T f a) (T f b) = fs a || fs b.
Proof.
by case: f; rewrite /= /measurement_overload /=; case: (fs a); case: (fs b).
Qed.
Lemma scaling_call f x y : fs x.1 || fs y.1 ->
  cov_call st (V f x) (V f y) = Some (weight fs s x * weight fs s y).
Proof.
case: x => a p; case: y => b q; rewrite /weight /=.
rewrite /cov_call /default_caller.
by case: f; case ea: (fs a); case eb: (fs b) => // _; rewrite ?mul1r ?mulr1; do 6!rewrite /= /measurement_overload /lincomb_overload /= ?ea ?eb /=.
Qed.
Lemma scaled_value c D d mx f x y : models c D d mx ->
  (if fs x.1 || fs y.1 then times (cov_call st (V f x) (V f y)) (cov_call c (V f x) (V f y)) else cov_call c (V f x) (V f y)) =
  if D x.1 y.1 then Some (weight fs s x * d f x y * weight fs s y) else None.
Proof.
move=> M; rewrite (default_call M) ?eqxx ?orbT // andbb.
case e: (fs x.1 || fs y.1).
  rewrite scaling_call //; case: (D _ _) => //; rewrite timesE.
  by rewrite mulrAC -mulrA [d f x y * _]mulrC mulrA mulrAC.
move/negbT: e; rewrite negb_or => /andP[/negbTE e1 /negbTE e2].
by rewrite /weight e1 e2 mul1r mulr1.
Qed.
Lemma scaled_left_models c D d mx : models c D d mx ->
  models (scaled_left (scaling_on fs s) c) D (fun m x y => weight fs s x * d m x y * weight fs s y) false.
Proof.
move=> M; apply: all_mode_models.
- by move=> X Y /(eqv_plain M).
- exact: (m_sym M).
- by move=> f g a b; exact: (eqv_ok M).
- move=> f g x y; rewrite orFb => /eqP <- dd; rewrite {1}/scaled_left {1}/call !tyV (eqv_ok M) scaling_eqv_ok dd andbb.
  have := scaled_value f x y M; rewrite dd => <-.
  by case: (fs _ || _).
- by move=> m x y; rewrite (m_dsym M) -mulrA mulrC [d m y x * weight fs s y]mulrC.
- by move=> m x y h; rewrite (m_undef M) // mulr0 mul0r.
Qed.
Lemma scaled_right_models c D d mx : models c D d mx ->
  models (scaled_right c (scaling_on fs s)) D (fun m x y => weight fs s x * d m x y * weight fs s y) false.
Proof.
move=> M; apply: all_mode_models.
- by move=> X Y /(eqv_plain M).
- exact: (m_sym M).
- by move=> f g a b; exact: (eqv_ok M).
- move=> f g x y; rewrite orFb => /eqP <- dd; rewrite {1}/scaled_right {1}/call !tyV (eqv_ok M) scaling_eqv_ok dd andbb.
  have := scaled_value f x y M; rewrite dd => <-.
  case: (fs _ || _) => //; rewrite (default_call M) ?eqxx ?orbT // dd.
  case: (cov_call _ _ _) => [w|] //; rewrite !timesE mulrC //.
- by move=> m x y; rewrite (m_dsym M) -mulrA mulrC [d m y x * weight fs s y]mulrC.
- by move=> m x y h; rewrite (m_undef M) // mulr0 mul0r.
Qed.
End Scaling.

Lemma build_models (e : cov_expr F P) : leaves_symmetric e ->
  models (build e) (defined_on e) (meaning e) (scaling_free e).
Proof.
elim: e => [d k|l IHl r IHr|l IHl r IHr|e IH|f s e IH|e IH f s] /=.
- exact: leaf_models.
- case=> /IHl {}IHl /IHr {}IHr; apply: sum_models.
    by case: (scaling_free l) IHl => //= /models_weaken.
  by case: (scaling_free r) IHr => [/models_weaken//|]; rewrite andbF.
- case=> /IHl {}IHl /IHr {}IHr; apply: product_models.
    by case: (scaling_free l) IHl => //= /models_weaken.
  by case: (scaling_free r) IHr => [/models_weaken//|]; rewrite andbF.
- by move=> /IH; exact: measurement_only_models.
- by move=> /IH; exact: scaled_left_models.
- by move=> /IH; exact: scaled_right_models.
Qed.
End Proofs.
