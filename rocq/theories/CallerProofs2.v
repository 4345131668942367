(* Proofs about the dispatch of covariance functions for linear combinations, measurements of them and
   variants. *)
From mathcomp Require Import all_ssreflect all_algebra.
From Verif Require Import GpSpec CallerModel CallerSpec CallerProofs.
Set Implicit Arguments.
Unset Strict Implicit.
Unset Printing Implicit Defensive.
Import GRing.Theory.
Local Open Scope ring_scope.

Section Proofs.
Variable F : fieldType.
Variable P : Type.
Notation caller := (caller F P).
Notation val := (val F P).
Notation point := (nat * P)%type.
Notation object := (bool * point)%type.
Variable e : cov_expr F P.
Hypothesis es : leaves_symmetric e.
Let c := build e.
Let D := defined_on e.
Let d := meaning e.
Let mx := scaling_free e.
Let M : models c D d mx := build_models es.
Let s1 := symmetric_caller c.
Let s2 := variant_forwarder s1.
Let s3 := linear_combination_caller s2.
Let s4 := measurement_forwarder s3.

(* ---- the double sum ---- *)
Definition pairing (A B : seq (F * object)) : F :=
  \sum_(a <- A) \sum_(b <- B) a.1 * b.1 * d (a.2.1 && b.2.1) a.2.2 b.2.2.
Lemma covE x y : covariance e x y = pairing (expand x) (expand y).
Proof. by []. Qed.
Lemma pairing_nil B : pairing [::] B = 0.
Proof. by rewrite /pairing big_nil. Qed.
Lemma pairing_cat A A' B : pairing (A ++ A') B = pairing A B + pairing A' B.
Proof. by rewrite /pairing big_cat. Qed.
Lemma pairing_scale k A B : pairing [seq (k * a.1, a.2) | a <- A] B = k * pairing A B.
Proof.
rewrite /pairing big_map mulr_sumr; apply: eq_bigr => a _.
by rewrite mulr_sumr; apply: eq_bigr => b _ /=; rewrite !mulrA.
Qed.
Lemma pairing_sym A B : pairing A B = pairing B A.
Proof.
rewrite /pairing exchange_big /=; apply: eq_bigr => a _; apply: eq_bigr => b _.
by rewrite andbC (m_dsym M) [_.1 * _]mulrC.
Qed.
Lemma cov_sym x y : covariance e x y = covariance e y x.
Proof. exact: pairing_sym. Qed.

Definition expand_terms (terms : seq (F * val)) : seq (F * object) :=
  flatten [seq [seq (cw.1 * a.1, a.2) | a <- expand cw.2] | cw <- terms].
Lemma expandLin t terms : expand (VLin t terms) = expand_terms terms.
Proof. by rewrite /expand_terms /=; elim: terms => [|[k w] rest IH] //=; rewrite IH. Qed.
Lemma expand_cons k w rest : expand_terms ((k, w) :: rest) = [seq (k * a.1, a.2) | a <- expand w] ++ expand_terms rest.
Proof. by []. Qed.
Lemma expandMeasLin t terms : expand (VMeas (VLin t terms)) = expand_terms terms.
Proof. by rewrite -(expandLin t). Qed.
Lemma expandV f (x : point) : expand (V F f x) = [:: (1, (f, x))].
Proof. by case: x => a p; case: f. Qed.
Lemma pairingV f g (x y : point) : pairing [:: (1, (f, x))] [:: (1, (g, y))] = d (f && g) x y.
Proof. by rewrite /pairing !big_seq1 /= !mul1r. Qed.

(* ---- sums over the terms of a linear combination ---- *)
Lemma weighted_sound (h : val -> option F) (B : seq (F * object)) (terms : seq (F * val)) (s v : F) :
  (forall k w u, List.In (k, w) terms -> h w = Some u -> u = pairing (expand w) B) ->
  weighted_sum h terms s = Some v -> v = s + pairing (expand_terms terms) B.
Proof.
elim: terms s => [|[k w] rest IH] s hh /=.
  by case=> <-; rewrite pairing_nil addr0.
case hw: (h w) => [u|] // hs.
rewrite (IH _ _ hs); last by move=> k' w' u' hin; apply: (hh k'); right.
rewrite (hh k w u _ hw); last by left.
by rewrite -addrA expand_cons pairing_cat pairing_scale.
Qed.
Lemma weighted_some (h : val -> option F) terms s :
  (forall k w, List.In (k, w) terms -> isSome (h w)) -> isSome (weighted_sum h terms s).
Proof.
elim: terms s => [|[k w] rest IH] s hh //=.
have := hh k w (or_introl erefl); case: (h w) => // u _.
by apply: IH => k' w' hin; apply: (hh k'); right.
Qed.
Lemma row_sound (h : val -> option F) (A : seq (F * object)) (terms : seq (F * val)) (v : F) :
  (forall k w u, List.In (k, w) terms -> h w = Some u -> u = pairing A (expand w)) ->
  row_dot h terms = Some v -> v = pairing A (expand_terms terms).
Proof.
elim: terms v => [|[k w] rest IH] v hh /=.
  by case=> <-; rewrite pairing_sym pairing_nil.
case hw: (h w) => [u|] //; case hr: (row_dot h rest) => [r|] // [<-].
rewrite (IH _ _ hr); last by move=> k' w' u' hin; apply: (hh k'); right.
rewrite (hh k w u _ hw); last by left.
by rewrite expand_cons [RHS]pairing_sym pairing_cat pairing_scale mulrC ![pairing _ A]pairing_sym.
Qed.
Lemma row_some (h : val -> option F) terms :
  (forall k w, List.In (k, w) terms -> isSome (h w)) -> isSome (row_dot h terms).
Proof.
elim: terms => [|[k w] rest IH] hh //=.
have := hh k w (or_introl erefl); case: (h w) => // u _.
have : isSome (row_dot h rest) by apply: IH => k' w' hin; apply: (hh k'); right.
by case: (row_dot h rest).
Qed.
Lemma bilinear_sound (h : val -> val -> option F) xs ys v :
  (forall k w l z u, List.In (k, w) xs -> List.In (l, z) ys -> h w z = Some u -> u = pairing (expand w) (expand z)) ->
  bilinear h xs ys = Some v -> v = pairing (expand_terms xs) (expand_terms ys).
Proof.
elim: xs v => [|[k w] rest IH] v hh /=.
  by case=> <-; rewrite pairing_nil.
case hr: (row_dot _ _) => [r|] //; case hb: (bilinear _ _ _) => [b|] // [<-].
rewrite (IH _ _ hb); last by move=> k' w' l z u hin; apply: (hh k'); right.
rewrite (row_sound (A := expand w) _ hr); last by move=> l z u hin hz; apply: (hh k w l z u) => //; left.
by rewrite expand_cons pairing_cat pairing_scale.
Qed.
Lemma bilinear_some (h : val -> val -> option F) xs ys :
  (forall k w l z, List.In (k, w) xs -> List.In (l, z) ys -> isSome (h w z)) -> isSome (bilinear h xs ys).
Proof.
elim: xs => [|[k w] rest IH] hh //=.
have : isSome (row_dot (h w) ys) by apply: row_some => l z hin; apply: (hh k w l z) => //; left.
have : isSome (bilinear h rest ys) by apply: IH => k' w' l z hin; apply: (hh k'); right.
by case: (row_dot _ _) => // ?; case: (bilinear _ _ _).
Qed.

(* ---- what reaches the inner variant forwarder ---- *)
Lemma s1_spine X Y : ok s1 X Y -> spine X && spine Y.
Proof. by rewrite /s1 /= => /orP[|] /(hv_spine M) //; rewrite andbC. Qed.
Lemma s1_hv X Y : has_valid_cov_caller s1 X Y -> spine X && spine Y.
Proof. by case: X => [a|t|t|ts]; case: Y => [b|u|u|us] //; exact: s1_spine. Qed.
Lemma s1_base a b : ok s1 (TBase a) (TBase b) = D a b.
Proof. exact: (sym_base M). Qed.
Lemma s1_sound f g a b : ok s1 (T f a) (T g b) -> D a b.
Proof. exact: (sym_sound M). Qed.

Definition fr (f g : bool) : bool := mx || (f == g).
Lemma visit_sound f g (x y : point) v : fr f g ->
  (~~ ok s1 (T f x.1) (T g y.1) -> ~~ D x.1 y.1) ->
  call_visitor s1 (V F f x) (V F g y) = Some v -> v = d (f && g) x y.
Proof.
move=> hf hn; rewrite /call_visitor !tyV hvT.
case o: (ok s1 _ _); first by rewrite (m_value M hf o) => -[<-].
by case=> <-; rewrite (m_undef M) // hn // o.
Qed.

(* an element of a linear combination *)
Definition var (bs : seq nat) (x : point) : val := VVar (map TBase bs) (V F false x).
Lemma s1E f g a b : ok s1 (T f a) (T g b) = ok c (T f a) (T g b) || ok c (T g b) (T f a).
Proof. by rewrite /s1 {1}/symmetric_caller {1}/ok !hvT. Qed.
Lemma mixed_visit g b (bs : seq nat) (x : point) :
  has_valid_variant_cov_caller s1 (T g b) (map TBase bs) -> ~~ ok s1 (T g b) (T false x.1) -> ~~ D b x.1.
Proof.
case: g => [hs|_]; last by rewrite -s1_base.
case: (m_mixed M) => h; first by rewrite s1E !h (m_sym M x.1 b) orbb.
move: hs; rewrite /has_valid_variant_cov_caller has_map => /hasP[a _].
have -> : preim TBase (has_valid_cov_caller s1 (T true b)) a = ok s1 (T true b) (T false a) by [].
by rewrite s1E; case: (h b a) => -> _; case: (h a b) => _ ->.
Qed.

Lemma s2_VV f g (x y : point) v : fr f g -> call s2 (V F f x) (V F g y) = Some v -> v = d (f && g) x y.
Proof.
move=> hf; rewrite /s2 var_call; case o: (ok _ _ _) => //.
by rewrite (m_value M hf o) => -[<-].
Qed.
Lemma s2_varVE bs g (x y : point) :
  call s2 (var bs x) (V F g y) =
  if has_valid_variant_cov_caller s1 (T g y.1) (map TBase bs) then call_visitor s1 (V F g y) (V F false x) else None.
Proof. by case: g. Qed.
Lemma s2_VvarE bs f (x y : point) :
  call s2 (V F f x) (var bs y) =
  if has_valid_variant_cov_caller s1 (T f x.1) (map TBase bs) then call_visitor s1 (V F f x) (V F false y) else None.
Proof. by case: f. Qed.
Lemma s2_varV bs g (x y : point) v : fr false g -> call s2 (var bs x) (V F g y) = Some v -> v = d false x y.
Proof.
move=> hf; rewrite s2_varVE; case hs: (has_valid_variant_cov_caller _ _ _) => // hv.
rewrite (m_dsym M) -[false](andbF g); apply: (visit_sound (f := g) (g := false)) hv; first by move: hf; rewrite /fr eq_sym.
exact: mixed_visit hs.
Qed.
Lemma s2_Vvar bs f (x y : point) v : fr f false -> call s2 (V F f x) (var bs y) = Some v -> v = d false x y.
Proof.
move=> hf; rewrite s2_VvarE; case hs: (has_valid_variant_cov_caller _ _ _) => // hv.
rewrite -[false](andbF f); apply: (visit_sound (f := f) (g := false)) hv => //.
exact: mixed_visit hs.
Qed.
Lemma s2_varvar bs us (x y : point) v : call s2 (var bs x) (var us y) = Some v -> v = d false x y.
Proof.
rewrite /s2 /variant_forwarder {1}/call /var.
case: (_ && _) => // hv; apply: (visit_sound (f := false) (g := false)) hv; first by rewrite /fr eqxx orbT.
by rewrite -s1_base.
Qed.

(* ---- elements of a linear combination ---- *)
Lemma atomP w : atom w -> exists x : point, w = V F false x \/ exists bs, w = var bs x.
Proof. by case=> [b p|bs b p _]; exists (b, p); [left|right; exists bs]. Qed.
Lemma expand_atom (w : val) : atom w -> exists x : point, expand w = [:: (1, (false, x))].
Proof. by case=> [b p|bs b p _]; exists (b, p). Qed.
Lemma expand_var bs (x : point) : expand (var bs x) = [:: (1, (false, x))].
Proof. by case: x. Qed.
Lemma s2_atoms w z u : atom w -> atom z -> call s2 w z = Some u -> u = pairing (expand w) (expand z).
Proof.
have ff : fr false false by rewrite /fr eqxx orbT.
case/atomP=> x [->|[bs ->]] /atomP[y [->|[us ->]]] h; rewrite ?expand_var ?expandV pairingV /=.
- exact: (s2_VV ff h).
- exact: (s2_Vvar ff h).
- exact: (s2_varV ff h).
- exact: (s2_varvar h).
Qed.
Lemma s2_Vatom f (x : point) z u : fr f false -> atom z -> call s2 (V F f x) z = Some u -> u = pairing (expand (V F f x)) (expand z).
Proof.
move=> hf /atomP[y [->|[us ->]]] h; rewrite ?expand_var ?expandV pairingV andbF.
- by rewrite (s2_VV hf h) andbF.
- exact: (s2_Vvar hf h).
Qed.
Lemma s2_atomV w g (y : point) u : fr false g -> atom w -> call s2 w (V F g y) = Some u -> u = pairing (expand w) (expand (V F g y)).
Proof.
move=> hf /atomP[x [->|[us ->]]] h; rewrite ?expand_var ?expandV pairingV.
- exact: (s2_VV hf h).
- exact: (s2_varV hf h).
Qed.

Lemma terms_okP (Q : val -> Prop) t (terms : seq (F * val)) k w : terms_ok Q t terms -> List.In (k, w) terms -> Q w /\ tyof w = t.
Proof. by elim: terms => [|[k' w'] rest IH] //= [h1 h2] [[_ <-]|/(IH h2)]. Qed.

(* ---- types ---- *)
Notation v2 := (has_valid_cov_caller s2).
Notation v3 := (has_valid_cov_caller s3).
Lemma s2_spine X Y : ok s2 X Y -> spine X && spine Y.
Proof.
have h (A : ty) (ts : seq ty) : has_valid_variant_cov_caller s1 A ts -> spine A.
  by elim: ts => [|t ts IH] //= /orP[/s1_hv /andP[]|/IH].
case: X => [a|t|t|ts]; case: Y => [b|u|u|us]; try exact: s1_spine; move=> o //=; try exact: (h _ _ o).
by rewrite andbT; exact: (h _ _ o).
Qed.
Lemma v2_spine X Y : v2 X Y -> spine X && spine Y.
Proof. by case: X => [a|t|t|ts]; case: Y => [b|u|u|us] //; exact: s2_spine. Qed.
Lemma v2_linl t Y : v2 (TLin t) Y = false.
Proof. by apply/negP => /v2_spine. Qed.
Lemma v2_linr X u : v2 X (TLin u) = false.
Proof. by apply/negP => /v2_spine; rewrite andbF. Qed.

Lemma lc_VL f a u : lincomb_overload s2 (T f a) (TLin u) = if v2 (T f a) u then Some Right else None.
Proof. by rewrite /lincomb_overload v2_linr; case: f => /=; case: (v2 _ _). Qed.
Lemma lc_LV t g b : lincomb_overload s2 (TLin t) (T g b) = if v2 t (T g b) then Some Left else None.
Proof. by rewrite /lincomb_overload v2_linl; case: g => /=; case: (v2 _ _). Qed.
Lemma lc_LL t u : lincomb_overload s2 (TLin t) (TLin u) = if v2 t u then Some Both else None.
Proof. by rewrite /lincomb_overload v2_linl v2_linl v2_linr /=; case: (v2 _ _). Qed.

(* ---- the linear combination caller ---- *)
Inductive shape : val -> Prop :=
| ShapeV f x : shape (V F f x)
| ShapeL t terms : atom_type t -> terms_ok (@atom F P) t terms -> shape (VLin t terms).
Definition sr (x y : val) : bool := mx || same_flags x y.

Lemma sr_VV f g (x y : point) : sr (V F f x) (V F g y) = fr f g.
Proof.
rewrite /sr /fr /same_flags /flags !expandV /= !andbT.
by case: f; case: g.
Qed.
Lemma sr_term f (x : point) t terms k w : terms_ok (@atom F P) t terms -> List.In (k, w) terms ->
  sr (V F f x) (VLin t terms) -> fr f false.
Proof.
move=> ht hin; rewrite /sr /fr; case/orP => [->//|].
rewrite /same_flags /flags expandV /= andbT => /allP h.
have hf : eqb f false.
  apply: h; rewrite -/(expand (VLin t terms)) expandLin.
  elim: terms ht hin => [|[k' w'] rest IH] //= [[aw _] hr] [[_ e1]|/(IH hr)].
    by case: (expand_atom aw) => y ey; rewrite expand_cons map_cat mem_cat ey.
  by rewrite expand_cons map_cat mem_cat => ->; rewrite orbT.
by rewrite -[f == false]/(eqb f false) hf orbT.
Qed.
Lemma same_flags_sym (x y : val) : same_flags x y = same_flags y x.
Proof.
apply/allP/allP => h f hf; apply/allP => g hg; have /allP := h g hg => /(_ f hf).
  by case: f {hf}; case: g {hg}.
by case: f {hf}; case: g {hg}.
Qed.
Lemma sr_sym x y : sr x y = sr y x.
Proof. by rewrite /sr same_flags_sym. Qed.
Lemma fr_sym f g : fr f g = fr g f.
Proof. by rewrite /fr eq_sym. Qed.

Lemma s3_sound x y v : shape x -> shape y -> sr x y -> call s3 x y = Some v -> v = covariance e x y.
Proof.
move=> [f x0|t xs ht hx] [g y0|u ys hu hy] hs; rewrite /s3 /linear_combination_caller {1}/call covE.
- rewrite !tyV lin_pass; case: (ok _ _ _) => // h.
  rewrite !expandV pairingV; move: hs; rewrite sr_VV => hf; exact: (s2_VV hf h).
- rewrite tyV lc_VL; case: (v2 _ _) => // h.
  rewrite expandLin.
  have := weighted_sound (B := expand (V F f x0)) _ h; rewrite add0r pairing_sym => -> //.
  move=> k w z hin; rewrite pairing_sym; apply: s2_Vatom; first exact: (sr_term hy hin hs).
  by case: (terms_okP hy hin).
- rewrite tyV lc_LV; case: (v2 _ _) => // h.
  rewrite expandLin.
  have := weighted_sound (B := expand (V F g y0)) _ h; rewrite add0r => -> //.
  move=> k w z hin; apply: s2_atomV; first by rewrite fr_sym; apply: (sr_term hx hin); rewrite sr_sym; exact: hs.
  by case: (terms_okP hx hin).
- rewrite lc_LL; case: (v2 _ _) => // h.
  rewrite !expandLin; apply: bilinear_sound h => k w l z r hin hin2; apply: s2_atoms.
    by case: (terms_okP hx hin).
  by case: (terms_okP hy hin2).
Qed.

(* ---- the measurement forwarder ---- *)
Lemma v3_VL f a u : v3 (T f a) (TLin u) = v2 (T f a) u.
Proof.
have -> : v3 (T f a) (TLin u) = isSome (lincomb_overload s2 (T f a) (TLin u)) by case: f.
by rewrite lc_VL; case: (v2 _ _).
Qed.
Lemma v3_LV t g b : v3 (TLin t) (T g b) = v2 t (T g b).
Proof.
have -> : v3 (TLin t) (T g b) = isSome (lincomb_overload s2 (TLin t) (T g b)) by case: g.
by rewrite lc_LV; case: (v2 _ _).
Qed.
Lemma v3_LL t u : v3 (TLin t) (TLin u) = v2 t u.
Proof.
have -> : v3 (TLin t) (TLin u) = isSome (lincomb_overload s2 (TLin t) (TLin u)) by [].
by rewrite lc_LL; case: (v2 _ _).
Qed.
Lemma v3_ml t Y : v3 (TMeas (TLin t)) Y = false.
Proof.
have -> : v3 (TMeas (TLin t)) Y = isSome (lincomb_overload s2 (TMeas (TLin t)) Y) by [].
have h Z : v2 (TMeas (TLin t)) Z = false by apply/negP => /v2_spine.
by rewrite /lincomb_overload; move: v2 h => v h; rewrite h; case: Y => //= u; rewrite h.
Qed.
Lemma v3_mr X u : v3 X (TMeas (TLin u)) = false.
Proof.
have -> : v3 X (TMeas (TLin u)) = isSome (lincomb_overload s2 X (TMeas (TLin u))) by case: X.
have h Z : v2 Z (TMeas (TLin u)) = false by apply/negP => /v2_spine; rewrite andbF.
by rewrite /lincomb_overload; move: v2 h => v h; rewrite h; case: X => //= t; rewrite h.
Qed.
Notation mo := (measurement_overload s3).
Lemma mo_VL f a u : mo (T f a) (TLin u) =
  if v3 (T f a) (TLin u) then Some Generic else if v3 (TBase a) (TLin u) then Some Left else None.
Proof.
rewrite /measurement_overload; move: v3 => v; case: f => /=.
  by case: (v (TMeas _) _); case: (v _ _).
by case: (v _ _).
Qed.
Lemma mo_LV t g b : mo (TLin t) (T g b) =
  if v3 (TLin t) (T g b) then Some Generic else if v3 (TLin t) (TBase b) then Some Right else None.
Proof.
rewrite /measurement_overload; move: v3 => v; case: g => /=.
  by case: (v _ (TMeas _)); case: (v _ _).
by case: (v _ _).
Qed.
Lemma mo_VM f a u : mo (T f a) (TMeas (TLin u)) =
  if f && v3 (TBase a) (TLin u) then Some Both else if v3 (T f a) (TLin u) then Some Right else None.
Proof.
rewrite /measurement_overload; move: v3 v3_mr => v h; rewrite h; case: f => /=; rewrite ?h.
  by rewrite !andbT; case: (v (TBase _) _); case: (v _ _).
by rewrite andbT; case: (v _ _).
Qed.
Lemma mo_MV t g b : mo (TMeas (TLin t)) (T g b) =
  if g && v3 (TLin t) (TBase b) then Some Both else if v3 (TLin t) (T g b) then Some Left else None.
Proof.
rewrite /measurement_overload; move: v3 v3_ml => v h; rewrite h; case: g => /=; rewrite ?h.
  by rewrite !andbT; case: (v _ (TBase _)); case: (v _ _).
by rewrite andbT; case: (v _ _).
Qed.
Lemma mo_LL t u : mo (TLin t) (TLin u) = if v3 (TLin t) (TLin u) then Some Generic else None.
Proof. by []. Qed.
Lemma mo_LM t u : mo (TLin t) (TMeas (TLin u)) = if v3 (TLin t) (TLin u) then Some Right else None.
Proof. by rewrite /measurement_overload; move: v3 v3_mr => v h; rewrite h /= andbT; case: (v _ _). Qed.
Lemma mo_ML t u : mo (TMeas (TLin t)) (TLin u) = if v3 (TLin t) (TLin u) then Some Left else None.
Proof. by rewrite /measurement_overload; move: v3 v3_ml => v h; rewrite h /= andbT; case: (v _ _). Qed.
Lemma mo_MM t u : mo (TMeas (TLin t)) (TMeas (TLin u)) = if v3 (TLin t) (TLin u) then Some Both else None.
Proof.
rewrite /measurement_overload; move: v3 v3_ml v3_mr => v h h'.
by rewrite !h !h' /= andbT; case: (v _ _).
Qed.

Lemma flagless f (x : point) t ys : terms_ok (@atom F P) t ys ->
  covariance e (V F f x) (VLin t ys) = covariance e (V F false x) (VLin t ys).
Proof.
rewrite !covE !expandLin !expandV /pairing !big_seq1 /=; elim: ys => [|[k w] ys IH] /= => [_|[[aw _] /IH {}IH]].
  by rewrite !big_nil.
rewrite expand_cons !big_cat /= {}IH; congr (_ + _).
by case: (expand_atom aw) => z ->; rewrite !big_seq1 /= andbF.
Qed.
Lemma cov_ML t ys x : covariance e x (VMeas (VLin t ys)) = covariance e x (VLin t ys).
Proof. by []. Qed.
Lemma cov_LM t xs y : covariance e (VMeas (VLin t xs)) y = covariance e (VLin t xs) y.
Proof. by []. Qed.
Lemma sr_ML t ys x : sr x (VMeas (VLin t ys)) = sr x (VLin t ys).
Proof. by []. Qed.
Lemma sr_LM t xs y : sr (VMeas (VLin t xs)) y = sr (VLin t xs) y.
Proof. by []. Qed.

Lemma flags_atoms t ys : terms_ok (@atom F P) t ys -> all (eqb false) (flags (VLin t ys)).
Proof.
rewrite /flags expandLin; elim: ys => [|[k w] ys IH] //= [[aw _] /IH {}IH].
by rewrite expand_cons map_cat all_cat IH andbT; case: (expand_atom aw) => z ->.
Qed.
Lemma sr_false (x : point) t ys : terms_ok (@atom F P) t ys -> sr (V F false x) (VLin t ys).
Proof.
move=> /flags_atoms h; rewrite /sr /same_flags.
have -> : flags (V F false x) = [:: false] by rewrite /flags expandV.
by move: (flags (VLin t ys)) h => l h; rewrite /= h orbT.
Qed.
Lemma sr_LL t xs u ys : terms_ok (@atom F P) t xs -> terms_ok (@atom F P) u ys -> sr (VLin t xs) (VLin u ys).
Proof.
move=> /flags_atoms /allP hx /flags_atoms hy; rewrite /sr; apply/orP; right.
by apply/allP => f /hx /eqP <-.
Qed.

Lemma plainP (x : val) : plain x ->
  (exists f z, x = V F f z) \/
  exists t terms, [/\ atom_type t, terms_ok (@atom F P) t terms & x = VLin t terms \/ x = VMeas (VLin t terms)].
Proof.
case=> [b p|b p|t terms ht hk|t terms ht hk].
- by left; exists false, (b, p).
- by left; exists true, (b, p).
- by right; exists t, terms; split => //; left.
- by right; exists t, terms; split => //; right.
Qed.
Lemma s3_inner_call f g x y : ok s1 (T f x.1) (T g y.1) -> call s3 (V F f x) (V F g y) = call s1 (V F f x) (V F g y).
Proof. exact: inner_call. Qed.

Lemma tyL t (xs : seq (F * val)) : tyof (VLin t xs) = TLin t.
Proof. by []. Qed.
Lemma tyML t (xs : seq (F * val)) : tyof (VMeas (VLin t xs)) = TMeas (TLin t).
Proof. by []. Qed.
Lemma s4_sound x y v : plain x -> plain y -> sr x y ->
  call s4 x y = Some v -> v = covariance e x y.
Proof.
have cE z w : call s4 z w = match mo (tyof z) (tyof w) with
       | Some Generic => call s3 z w | Some Both => call s3 (unwrap z) (unwrap w)
       | Some Left => call s3 (unwrap z) w | Some Right => call s3 z (unwrap w) | None => None end by [].
case/plainP=> [[f [x0 ->]]|[t [xs [ht hx ex]]]]; case/plainP=> [[g [y0 ->]]|[u [ys [hu hy ey]]]].
- rewrite sr_VV => hf; rewrite (meas_call M (inner_ok c) (@inner_call _ _ c) x0 y0 hf).
  by case: (D _ _) => // -[<-]; rewrite covE !expandV pairingV.
- have SL := ShapeL hu hy.
  case: ey => -> {y}; rewrite ?sr_ML ?cov_ML cE tyV ?tyML ?tyL => hs.
    rewrite mo_VL; case: (v3 _ _); first exact: (s3_sound (ShapeV _ _) SL hs).
    case: (v3 _ _) => // h; rewrite (flagless _ _ hy).
    apply: (s3_sound (ShapeV _ _) SL (sr_false _ hy)); by case: f {hs} h.
  rewrite mo_VM; case: ifP => [/andP[hf _] h|_].
    rewrite (flagless _ _ hy); apply: (s3_sound (ShapeV _ _) SL (sr_false _ hy)).
    by case: f hf {hs} h.
  by case: (v3 _ _) => //; exact: (s3_sound (ShapeV _ _) SL hs).
- have SL := ShapeL ht hx.
  case: ex => -> {x}; rewrite ?sr_LM ?cov_LM cE tyV ?tyML ?tyL => hs.
    rewrite mo_LV; case: (v3 _ _); first exact: (s3_sound SL (ShapeV _ _) hs).
    case: (v3 _ _) => // h; rewrite cov_sym (flagless _ _ hx) cov_sym.
    apply: (s3_sound SL (ShapeV _ _)); first by rewrite sr_sym sr_false.
    by case: g {hs} h.
  rewrite mo_MV; case: ifP => [/andP[hf _] h|_].
    rewrite cov_sym (flagless _ _ hx) cov_sym; apply: (s3_sound SL (ShapeV _ _)); first by rewrite sr_sym sr_false.
    by case: g hf {hs} h.
  by case: (v3 _ _) => //; exact: (s3_sound SL (ShapeV _ _) hs).
- have SX := ShapeL ht hx; have SY := ShapeL hu hy; have := sr_LL hx hy.
  case: ex => -> {x}; case: ey => -> {y} hs _; rewrite ?cov_LM ?cov_ML cE ?tyML ?tyL.
  + by rewrite mo_LL; case: (v3 _ _) => //; exact: s3_sound.
  + by rewrite mo_LM; case: (v3 _ _) => //; exact: s3_sound.
  + by rewrite mo_ML; case: (v3 _ _) => //; exact: s3_sound.
  + by rewrite mo_MM; case: (v3 _ _) => //; exact: s3_sound.
Qed.

Lemma plain_not_variant (x : val) : plain x -> ~~ is_variant (tyof x).
Proof. by case. Qed.
Lemma default_plain x y : ~~ is_variant (tyof x) -> ~~ is_variant (tyof y) ->
  cov_call c x y = if ok s4 (tyof x) (tyof y) then call s4 x y else None.
Proof.
rewrite /cov_call /default_caller -/s1 -/s2 -/s3 -/s4; move: s4 => s.
by case: x => [a p|x|t xs|ts x]; case: y => [b q|y|u ys|us y] //= _ _; case: (ok s _ _).
Qed.

Theorem cov_call_plain x y v : plain x -> plain y ->
  scaling_respected e x y -> cov_call c x y = Some v -> v = covariance e x y.
Proof.
move=> hx hy hs; rewrite default_plain ?(plain_not_variant hx) ?(plain_not_variant hy) //.
by case: (ok _ _ _) => //; exact: s4_sound.
Qed.

(* ---- when the call is defined ---- *)
Lemma class_atom t (terms : seq (F * val)) : terms_ok (@is_class_object F P) t terms -> terms_ok (@atom F P) t terms.
Proof.
elim: terms => [|[k w] rest IH] //= [[[b [q eq_]] ht] /IH hr]; split=> //; split=> //.
by rewrite eq_; constructor.
Qed.
Lemma atom_class b (terms : seq (F * val)) : terms_ok (@atom F P) (TBase b) terms -> terms_ok (@is_class_object F P) (TBase b) terms.
Proof.
elim: terms => [|[k w] rest IH] //= [[aw tw] /IH hr]; split=> //; split=> //.
by case: aw tw => [b' p|bs b' p _] //=; exists b', p.
Qed.
Lemma over_plain b (x : val) : over_class b x -> plain x.
Proof.
case=> [p|p|terms h|terms h]; try by constructor.
- by apply: PlainLin; [left; exists b|exact: class_atom].
- by apply: PlainMeasLin; [left; exists b|exact: class_atom].
Qed.
Lemma over_ty b (x : val) : over_class b x -> class_of_type (tyof x) = Some b.
Proof. by case. Qed.
Lemma class_tyP X a : class_of_type X = Some a ->
  (exists f, X = T f a) \/ X = TLin (TBase a) \/ X = TMeas (TLin (TBase a)).
Proof.
case: X => [b|t|t|ts] //=.
- by case=> ->; left; exists false.
- case: t => [b|t|t|ts] //; first by case=> ->; left; exists true.
  by case: t => // b [->]; right; right.
- by case: t => // b [->]; right; left.
Qed.
Lemma v2_T f g a b : v2 (T f a) (T g b) = ok s1 (T f a) (T g b).
Proof. by rewrite hvT /s2 var_ok. Qed.
Lemma v2_imp f a b : v2 (T f a) (TBase b) -> D a b.
Proof. by rewrite -[TBase b]/(T false b) v2_T; exact: s1_sound. Qed.
Lemma v2_imp' g a b : v2 (TBase a) (T g b) -> D a b.
Proof. by rewrite -[TBase a]/(T false a) v2_T; exact: s1_sound. Qed.
Lemma v2_base a b : v2 (TBase a) (TBase b) = D a b.
Proof. by rewrite -[TBase a]/(T false a) -[TBase b]/(T false b) v2_T s1_base. Qed.

Lemma s4_ok X Y a b : class_of_type X = Some a -> class_of_type Y = Some b -> ok s4 X Y = D a b.
Proof.
have oE Z W : ok s4 Z W = isSome (mo Z W) by [].
have vB := v3_VL false; have vB' := fun t => v3_LV t false.
case/class_tyP => [[f ->]|[->|->]]; case/class_tyP => [[g ->]|[->|->]]; rewrite ?oE.
- exact: (meas_ok M (inner_ok c)).
- rewrite mo_VL v3_VL vB v2_base; case: ifP => [/v2_imp -> //|_]; by case: (D _ _).
- rewrite mo_VM v3_VL vB v2_base; case: ifP => [/andP[_ ->] //|].
  case: ifP => [/v2_imp -> //|]; case: f; first by rewrite andTb => _ ->.
  by rewrite [T false a]/T v2_base => ->.
- rewrite mo_LV v3_LV vB' v2_base; case: ifP => [/v2_imp' -> //|_]; by case: (D _ _).
- by rewrite mo_LL v3_LL v2_base; case: (D _ _).
- by rewrite mo_LM v3_LL v2_base; case: (D _ _).
- rewrite mo_MV v3_LV vB' v2_base; case: ifP => [/andP[_ ->] //|].
  case: ifP => [/v2_imp' -> //|]; case: g; first by rewrite andTb => _ ->.
  by rewrite [T false b]/T v2_base => ->.
- by rewrite mo_ML v3_LL v2_base; case: (D _ _).
- by rewrite mo_MM v3_LL v2_base; case: (D _ _).
Qed.

Lemma class_term b terms k w : terms_ok (@is_class_object F P) (TBase b) terms -> List.In (k, w) terms ->
  exists p, w = V F false (b, p).
Proof. by move=> h hin; case: (terms_okP h hin) => [[b' [p ->]]] /= [->]; exists p. Qed.
Lemma s2_some f g (x y : point) : fr f g -> v2 (T f x.1) (T g y.1) -> isSome (call s2 (V F f x) (V F g y)).
Proof. by rewrite v2_T => hf o; rewrite /s2 var_call o (m_value M hf o). Qed.

Inductive cshape : nat -> val -> Prop :=
| CShapeV f a p : cshape a (V F f (a, p))
| CShapeL b terms : terms_ok (@is_class_object F P) (TBase b) terms -> cshape b (VLin (TBase b) terms).
Lemma s3_some a b x y : cshape a x -> cshape b y -> sr x y -> v3 (tyof x) (tyof y) -> isSome (call s3 x y).
Proof.
have ff : fr false false by rewrite /fr eqxx orbT.
have cE z w : call s3 z w = match lincomb_overload s2 (tyof z) (tyof w) with
       | Some Generic => call s2 z w | Some Both => bilinear (call s2) (terms_of z) (terms_of w)
       | Some Left => weighted_sum (fun u => call s2 u w) (terms_of z) 0
       | Some Right => weighted_sum (call s2 z) (terms_of w) 0 | None => None end by [].
have oE Z W : ok s3 Z W = isSome (lincomb_overload s2 Z W) by [].
move=> [f {}a p|{}a xs hx] [g {}b q|{}b ys hy] hs; rewrite cE ?tyV ?tyL.
- rewrite hvT oE lin_pass; case: ifP => // o _.
  by apply: s2_some; [rewrite -(sr_VV f g (a, p) (b, q))|rewrite v2_T; move: o; rewrite /s2 var_ok].
- rewrite v3_VL lc_VL => h; rewrite h; apply: weighted_some => k w hin.
  case: (class_term hy hin) => r ->; apply: (s2_some (y := (b, r))) => //; exact: (sr_term (class_atom hy) hin hs).
- rewrite v3_LV lc_LV => h; rewrite h; apply: weighted_some => k w hin.
  case: (class_term hx hin) => r ->; apply: (s2_some (x := (a, r))) => //.
  by rewrite fr_sym; apply: (sr_term (class_atom hx) hin); rewrite sr_sym; exact: hs.
- rewrite v3_LL lc_LL => h; rewrite h; apply: bilinear_some => k w l z hin hin2.
  case: (class_term hx hin) => r ->; case: (class_term hy hin2) => r' ->.
  exact: (s2_some (x := (a, r)) (y := (b, r'))).
Qed.
Lemma overP a (x : val) : over_class a x ->
  (exists f p, x = V F f (a, p)) \/
  exists2 terms, terms_ok (@is_class_object F P) (TBase a) terms & x = VLin (TBase a) terms \/ x = VMeas (VLin (TBase a) terms).
Proof.
case=> [p|p|terms h|terms h].
- by left; exists false, p.
- by left; exists true, p.
- by right; exists terms => //; left.
- by right; exists terms => //; right.
Qed.
Lemma s4_some a b x y : over_class a x -> over_class b y -> sr x y -> D a b -> isSome (call s4 x y).
Proof.
move=> ox oy; have := s4_ok (over_ty ox) (over_ty oy); move: ox oy.
have cE z w : call s4 z w = match mo (tyof z) (tyof w) with
       | Some Generic => call s3 z w | Some Both => call s3 (unwrap z) (unwrap w)
       | Some Left => call s3 (unwrap z) w | Some Right => call s3 z (unwrap w) | None => None end by [].
have oE Z W : ok s4 Z W = isSome (mo Z W) by [].
have vs s a' b' := s3_some (a := a') (b := b').
case/overP=> [[f [p ->]]|[xs hx ex]]; case/overP=> [[g [q ->]]|[ys hy ey]]; rewrite oE.
- rewrite sr_VV => _ hf dd; rewrite (meas_call M (inner_ok c) (@inner_call _ _ c) (a, p) (b, q) hf).
  by rewrite dd.
- have SL := CShapeL hy; have SV f' := CShapeV f' a p.
  case: ey => -> {y}; rewrite ?sr_ML cE tyV ?tyML ?tyL.
    rewrite mo_VL; case: ifP => [h _ hs _|_]; first by apply: s3_some (SV f) SL hs _; rewrite tyV.
    case: ifP => [h _ hs _|_ <- //].
    have -> : unwrap (V F f (a, p)) = V F false (a, p) by case: f {hs}.
    by apply: (s3_some (SV false) SL (sr_false _ (class_atom hy))).
  rewrite mo_VM; case: ifP => [/andP[hf h] _ hs _|_].
    have -> : unwrap (V F f (a, p)) = V F false (a, p) by case: f {hs hf}.
    by apply: (s3_some (SV false) SL (sr_false _ (class_atom hy))).
  case: ifP => [h _ hs _|_ <- //].
  by apply: s3_some (SV f) SL hs _; rewrite tyV.
- have SL := CShapeL hx; have SV f' := CShapeV f' b q.
  have srf : sr (VLin (TBase a) xs) (V F false (b, q)) by rewrite sr_sym (sr_false _ (class_atom hx)).
  case: ex => -> {x}; rewrite ?sr_LM cE tyV ?tyML ?tyL.
    rewrite mo_LV; case: ifP => [h _ hs _|_]; first by apply: s3_some SL (SV g) hs _; rewrite tyV.
    case: ifP => [h _ hs _|_ <- //].
    have -> : unwrap (V F g (b, q)) = V F false (b, q) by case: g {hs}.
    by apply: (s3_some SL (SV false)).
  rewrite mo_MV; case: ifP => [/andP[hf h] _ hs _|_].
    have -> : unwrap (V F g (b, q)) = V F false (b, q) by case: g {hs hf}.
    by apply: (s3_some SL (SV false)).
  case: ifP => [h _ hs _|_ <- //].
  by apply: s3_some SL (SV g) hs _; rewrite tyV.
- have SX := CShapeL hx; have SY := CShapeL hy; have hs := sr_LL (class_atom hx) (class_atom hy).
  case: ex => -> {x}; case: ey => -> {y}; rewrite ?sr_ML ?sr_LM cE ?tyML ?tyL ?mo_LL ?mo_LM ?mo_ML ?mo_MM.
  all: by case: ifP => [h _ _ _|_ <- //]; exact: (s3_some SX SY hs).
Qed.

Lemma s4_call a b x y : over_class a x -> over_class b y -> sr x y ->
  (if ok s4 (tyof x) (tyof y) then call s4 x y else None) = if D a b then Some (covariance e x y) else None.
Proof.
move=> ox oy hs; rewrite (s4_ok (over_ty ox) (over_ty oy)); case dd: (D a b) => //.
have := s4_some ox oy hs dd; case h: (call s4 x y) => [v|] // _.
by rewrite (s4_sound (over_plain ox) (over_plain oy) hs h).
Qed.
Lemma over_not_variant a (x : val) : over_class a x -> ~~ is_variant (tyof x).
Proof. by case. Qed.

Theorem cov_call_over_class a b x y : over_class a x -> over_class b y -> scaling_respected e x y ->
  cov_call c x y = if defined_on e a b then Some (covariance e x y) else None.
Proof.
move=> ox oy hs; rewrite default_plain ?(over_not_variant ox) ?(over_not_variant oy) //.
exact: s4_call.
Qed.

(* ---- variants ---- *)
Lemma over_expand a (x : val) : over_class a x -> List.Forall (fun t : F * object => t.2.2.1 = a) (expand x).
Proof.
have h terms : terms_ok (@is_class_object F P) (TBase a) terms -> List.Forall (fun t : F * object => t.2.2.1 = a) (expand_terms terms).
  elim: terms => [|[k w] rest IH] /=; first by constructor.
  case=> [[[b [p ->]] /= [->]]] /IH hr.
  by rewrite expand_cons; constructor.
case=> [p|p|terms ht|terms ht]; try by constructor.
- by rewrite expandLin; exact: h.
- by rewrite expandMeasLin; exact: h.
Qed.
Lemma cov_undef a b x y : over_class a x -> over_class b y -> ~~ D a b -> covariance e x y = 0.
Proof.
move=> /over_expand hx /over_expand hy nd; rewrite covE /pairing.
elim: (expand x) hx => [|t l IH] hx; first by rewrite big_nil.
inversion hx as [|? ? h1 h2]; subst; rewrite big_cons IH // addr0.
elim: (expand y) hy => [|u l' IH'] hy; first by rewrite big_nil.
inversion hy as [|? ? h3 h4]; subst; rewrite big_cons IH' // addr0.
by rewrite (m_undef M) // mulr0.
Qed.
Lemma visitor_s4 a b x y : over_class a x -> over_class b y -> sr x y -> call_visitor s4 x y = Some (covariance e x y).
Proof.
move=> ox oy hs; rewrite /call_visitor.
have -> : has_valid_cov_caller s4 (tyof x) (tyof y) = ok s4 (tyof x) (tyof y) by case: ox; case: oy.
rewrite (s4_ok (over_ty ox) (over_ty oy)); case dd: (D a b); last by rewrite (cov_undef ox oy) ?dd.
by have := s4_call ox oy hs; rewrite (s4_ok (over_ty ox) (over_ty oy)) dd.
Qed.
Lemma hv4 X Y a b : class_of_type X = Some a -> class_of_type Y = Some b -> has_valid_cov_caller s4 X Y = D a b.
Proof.
move=> hX hY; rewrite -(s4_ok hX hY).
by case: X hX => [?|?|?|?] //; case: Y hY.
Qed.
Lemma variant_has X a us cs : class_of_type X = Some a -> alternatives us cs ->
  has_valid_variant_cov_caller s4 X us = has (D a) cs.
Proof.
move=> hX; rewrite /alternatives /has_valid_variant_cov_caller.
elim: us cs => [|u us IH] [|k cs] //= [hu /IH ->].
by rewrite (hv4 hX hu).
Qed.
Lemma self_all us cs : alternatives us cs -> valid_for_all_variants s4 us = ~~ nilp cs && all (fun a => D a a) cs.
Proof.
rewrite /valid_for_all_variants /alternatives => h; congr (~~ _ && _).
  by case: us h => [|u us]; case: cs.
elim: us cs h => [|u us IH] [|k cs] //= [hu /IH ->].
by congr (_ && _); exact: (s4_ok hu hu).
Qed.

Theorem cov_call_variant_l a b ts cs x y : over_class a x -> over_class b y -> alternatives ts cs ->
  scaling_respected e x y ->
  cov_call c (VVar ts x) y = if has (defined_on e b) cs then Some (covariance e x y) else None.
Proof.
move=> ox oy ha hs; rewrite /cov_call /default_caller -/s1 -/s2 -/s3 -/s4.
have := visitor_s4 oy ox; rewrite sr_sym => /(_ hs) cv.
have hh := variant_has (over_ty oy) ha; rewrite -/D cov_sym.
have okE : ok (variant_forwarder s4) (TVar ts) (tyof y) = has_valid_variant_cov_caller s4 (tyof y) ts by case: oy.
have callE : call (variant_forwarder s4) (VVar ts x) y =
  if has_valid_variant_cov_caller s4 (tyof y) ts then call_visitor s4 y x else None by case: oy.
by rewrite [tyof (VVar _ _)]/= okE callE hh cv; case: (has _ _).
Qed.
Theorem cov_call_variant_r a b us ds x y : over_class a x -> over_class b y -> alternatives us ds ->
  scaling_respected e x y ->
  cov_call c x (VVar us y) = if has (defined_on e a) ds then Some (covariance e x y) else None.
Proof.
move=> ox oy ha hs; rewrite /cov_call /default_caller -/s1 -/s2 -/s3 -/s4.
have cv := visitor_s4 ox oy hs.
have hh := variant_has (over_ty ox) ha; rewrite -/D.
have okE : ok (variant_forwarder s4) (tyof x) (TVar us) = has_valid_variant_cov_caller s4 (tyof x) us by case: ox.
have callE : call (variant_forwarder s4) x (VVar us y) =
  if has_valid_variant_cov_caller s4 (tyof x) us then call_visitor s4 x y else None by case: ox.
by rewrite [tyof (VVar _ _)]/= okE callE hh cv; case: (has _ _).
Qed.
Theorem cov_call_variants a b ts cs us ds x y : over_class a x -> over_class b y ->
  alternatives ts cs -> alternatives us ds -> scaling_respected e x y ->
  cov_call c (VVar ts x) (VVar us y) =
  if [&& ~~ nilp cs, ~~ nilp ds, all (fun k => defined_on e k k) cs, all (fun k => defined_on e k k) ds
       & all (fun k => has (defined_on e k) ds) cs]
  then Some (covariance e x y) else None.
Proof.
move=> ox oy ha hb hs; rewrite /cov_call /default_caller -/s1 -/s2 -/s3 -/s4.
have cv := visitor_s4 ox oy hs.
have hS : has_valid_cov_caller s4 (TVar ts) (TVar us) = valid_for_all_variants s4 ts && valid_for_all_variants s4 us by [].
have hA : all (fun t => has_valid_variant_cov_caller s4 t us) ts = all (fun k => has (D k) ds) cs.
  move: ha; rewrite /alternatives; elim: (ts) (cs) => [|t ts' IH] [|k cs'] //= [ht /IH ->].
  by rewrite (variant_has ht hb).
have okE : ok (variant_forwarder s4) (TVar ts) (TVar us) = has_valid_cov_caller s4 (TVar ts) (TVar us) by [].
have callE : call (variant_forwarder s4) (VVar ts x) (VVar us y) =
  if has_valid_cov_caller s4 (TVar ts) (TVar us) && all (fun t => has_valid_variant_cov_caller s4 t us) ts
  then call_visitor s4 x y else None by [].
rewrite ![tyof (VVar _ _)]/= okE callE hS hA cv (self_all ha) (self_all hb) -/D.
by case: (nilp cs) => //; case: (nilp ds) => //=; rewrite ?andbF //=; case: (all _ cs); case: (all _ ds) => //=; case: (all _ _).
Qed.
End Proofs.
