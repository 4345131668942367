(* Proofs about mean functions and about matrices times features. *)
From mathcomp Require Import all_ssreflect all_algebra.
From Verif Require Import GpSpec CallerModel CallerSpec CallerProofs CallerProofs2.
Set Implicit Arguments.
Unset Strict Implicit.
Unset Printing Implicit Defensive.
Import GRing.Theory.
Local Open Scope ring_scope.

Section Means.
Variable F : fieldType.
Variable P : Type.
Notation mcaller := (mcaller F P).
Notation val := (val F P).
Notation point := (nat * P)%type.
Notation object := (bool * point)%type.

(* is the mean of a term of this type defined? *)
Definition Dt (D : nat -> bool) (t : ty) : bool :=
  match t with
  | TBase a => D a
  | TVar ts => has (fun t => if t is TBase a then D a else false) ts
  | _ => false
  end.
Definition total (d : point -> F) (A : seq (F * object)) : F := \sum_(a <- A) a.1 * d a.2.2.

Lemma total_nil d : total d [::] = 0.
Proof. by rewrite /total big_nil. Qed.
Lemma total_cat d A B : total d (A ++ B) = total d A + total d B.
Proof. by rewrite /total big_cat. Qed.
Lemma total_scale d k A : total d [seq (k * a.1, a.2) | a <- A] = k * total d A.
Proof. by rewrite /total big_map mulr_sumr; apply: eq_bigr => a _; rewrite mulrA. Qed.
Lemma totalV d f (x : point) : total d (expand (V F f x)) = d x.
Proof. by rewrite expandV /total big_seq1 mul1r. Qed.
Lemma total_plus d1 d2 A : total (fun x => d1 x + d2 x) A = total d1 A + total d2 A.
Proof. by rewrite /total -big_split; apply: eq_bigr => a _ /=; rewrite mulrDr. Qed.

Record mmodels (m : mcaller) (D : nat -> bool) (d : point -> F) (pf : bool) : Prop := MModels {
  mm_base : forall a, mok m (TBase a) = D a;
  mm_meas : forall a, mok m (TMeas (TBase a)) -> D a;
  mm_lin : forall t, atom_type t -> mok m (TLin t) -> Dt D t;
  mm_measlin : forall t, atom_type t -> mok m (TMeas (TLin t)) -> Dt D t;
  mm_val : forall f x, mok m (T f x.1) -> mcall m (V F f x) = Some (d x);
  mm_ml : forall t terms, pf -> atom_type t -> terms_ok (@atom F P) t terms -> mok m (TMeas (TLin t)) ->
     mcall m (VMeas (VLin t terms)) = Some (total d (expand_terms terms));
  mm_undef : forall x, ~~ D x.1 -> d x = 0
}.

Section Layers.
Variables (m : mcaller) (D : nat -> bool) (d : point -> F) (pf : bool).
Hypothesis M : mmodels m D d pf.
Let s2 := m_variant m.
Let s3 := m_lincomb s2.
Let s4 := m_measurement s3.

Lemma s2_atom_ok t : atom_type t -> mok s2 t = Dt D t.
Proof.
case=> [[b ->]|[bs ->]]; first exact: (mm_base M).
by rewrite /= !has_map; apply: eq_has => a /=; exact: (mm_base M).
Qed.
Lemma s2_atom_call (w : val) t : atom w -> tyof w = t -> Dt D t -> mcall s2 w = Some (total d (expand w)).
Proof.
case=> [b p|bs b p hin] <- hd.
  have dd : mok m (TBase b) by rewrite (mm_base M).
  have -> : mcall s2 (VBase F b p) = if mok m (TBase b) then mcall m (VBase F b p) else None by [].
  rewrite dd (mm_val M (f := false) (x := (b, p))) //.
  by rewrite -[VBase F b p]/(V F false (b, p)) totalV.
have hm : has (mok m) (map TBase bs) by rewrite -(s2_atom_ok (t := TVar (map TBase bs))) // in hd; right; exists bs.
have -> : mcall s2 (VVar (map TBase bs) (VBase F b p)) =
  if has (mok m) (map TBase bs) then (if mok m (TBase b) then mcall m (VBase F b p) else Some 0) else None by [].
rewrite hm; have -> : total d (expand (VVar (map TBase bs) (VBase F b p))) = d (b, p).
  by rewrite -[RHS](totalV d false).
rewrite (mm_base M); case dd: (D b); first by rewrite (mm_val M (f := false) (x := (b, p))) //= (mm_base M).
by rewrite (mm_undef M) // dd.
Qed.
Lemma weighted_total t (terms : seq (F * val)) s : terms_ok (@atom F P) t terms -> Dt D t ->
  weighted_sum (mcall s2) terms s = Some (s + total d (expand_terms terms)).
Proof.
elim: terms s => [|[k w] rest IH] s; first by move=> _ _; rewrite total_nil addr0.
case=> [[aw tw] hr] hd; have -> : weighted_sum (mcall s2) ((k, w) :: rest) s =
  if mcall s2 w is Some z then weighted_sum (mcall s2) rest (s + k * z) else None by [].
rewrite (s2_atom_call aw tw hd) IH //.
by rewrite expand_cons total_cat total_scale addrA.
Qed.
Lemma s3_okT f a : mok s3 (T f a) = mok m (T f a).
Proof. by case: f; rewrite /= orbF. Qed.
Lemma s3_callT f x : mok m (T f x.1) -> mcall s3 (V F f x) = Some (d x).
Proof. by move=> h; rewrite -(mm_val M h); move: h; case: f => /= ->. Qed.
Lemma s3_okL t : atom_type t -> mok s3 (TLin t) = Dt D t.
Proof.
move=> ht; have -> : mok s3 (TLin t) = mok m (TLin t) || mok s2 t by [].
rewrite (s2_atom_ok ht); apply/orP/idP => [[/(mm_lin M ht)|]|->] //; by right.
Qed.
Lemma s3_callL t terms : atom_type t -> terms_ok (@atom F P) t terms -> Dt D t ->
  mcall s3 (VLin t terms) = Some (total d (expand_terms terms)).
Proof.
move=> ht hk hd; have -> : mcall s3 (VLin t terms) = if mok s2 t then weighted_sum (mcall s2) terms 0
  else if mok s2 (TLin t) then mcall s2 (VLin t terms) else None by [].
by rewrite (s2_atom_ok ht) hd (weighted_total _ hk hd) add0r.
Qed.
Lemma s3_okML t : mok s3 (TMeas (TLin t)) = mok m (TMeas (TLin t)).
Proof. by rewrite /= orbF. Qed.
Lemma s4E X : mok s4 X = mok s3 X || (if X is TMeas a then mok s3 a && ~~ mok s3 X else false).
Proof. by []. Qed.
Lemma s4_okT f a : mok s4 (T f a) = D a.
Proof.
rewrite s4E s3_okT; case: f; rewrite [T _ _]/T; last by rewrite orbF (mm_base M).
rewrite -[TBase a]/(T false a) s3_okT (mm_base M).
by have := mm_meas M (a := a); case: (mok m (TMeas _)) => [->|] //; rewrite andbT.
Qed.
Lemma s4_callT f x : D x.1 -> mcall s4 (V F f x) = Some (d x).
Proof.
move=> dd; case: f.
  have -> : mcall s4 (V F true x) = if mok s3 (T false x.1) && ~~ mok s3 (T true x.1) then mcall s3 (V F false x)
     else if mok s3 (T true x.1) then mcall s3 (V F true x) else None by [].
  rewrite !s3_okT (mm_base M) dd; case h: (mok m (T true x.1)); first exact: s3_callT.
  by apply: s3_callT; rewrite (mm_base M).
have -> : mcall s4 (V F false x) = if mok s3 (T false x.1) then mcall s3 (V F false x) else None by [].
by rewrite s3_okT (mm_base M) dd s3_callT // (mm_base M).
Qed.
Lemma s4_okL t : atom_type t -> mok s4 (TLin t) = Dt D t.
Proof. by move=> ht; rewrite s4E (s3_okL ht) orbF. Qed.
Lemma s4_callL t terms : atom_type t -> terms_ok (@atom F P) t terms -> Dt D t ->
  mcall s4 (VLin t terms) = Some (total d (expand_terms terms)).
Proof.
move=> ht hk hd; have -> : mcall s4 (VLin t terms) = if mok s3 (TLin t) then mcall s3 (VLin t terms) else None by [].
by rewrite (s3_okL ht) hd s3_callL.
Qed.
Lemma s4_okML t : atom_type t -> mok s4 (TMeas (TLin t)) = Dt D t.
Proof.
move=> ht; rewrite s4E (s3_okL ht) s3_okML.
by have := mm_measlin M ht; case: (mok m _) => [->|_] //; rewrite andbT.
Qed.
Lemma s4_callML t terms : pf -> atom_type t -> terms_ok (@atom F P) t terms -> Dt D t ->
  mcall s4 (VMeas (VLin t terms)) = Some (total d (expand_terms terms)).
Proof.
move=> hp ht hk hd.
have -> : mcall s4 (VMeas (VLin t terms)) = if mok s3 (TLin t) && ~~ mok s3 (TMeas (TLin t)) then mcall s3 (VLin t terms)
  else if mok s3 (TMeas (TLin t)) then mcall s3 (VMeas (VLin t terms)) else None by [].
rewrite (s3_okL ht) hd s3_okML; case h: (mok m _); last by rewrite s3_callL.
rewrite -(mm_ml M hp ht hk h).
by have -> : mcall s3 (VMeas (VLin t terms)) = if mok m (TMeas (TLin t)) then mcall s2 (VMeas (VLin t terms)) else None by [];
  rewrite h /s2 /= h.
Qed.

Lemma mdef_ok X : ~~ is_variant X -> mok (m_default m) X = mok s4 X.
Proof. by case: X. Qed.
Lemma mdef_call (x : val) : ~~ is_variant (tyof x) -> mean_call m x = if mok s4 (tyof x) then mcall s4 x else None.
Proof.
rewrite /mean_call /m_default -/s2 -/s3 -/s4; move: s4 => s.
by case: x => //= *; case: (mok s _).
Qed.
Lemma mean_V f x : mean_call m (V F f x) = if D x.1 then Some (d x) else None.
Proof.
rewrite mdef_call; last by case: f.
by rewrite tyV s4_okT; case h: (D _) => //; rewrite s4_callT.
Qed.
Lemma mean_L t terms : atom_type t -> terms_ok (@atom F P) t terms ->
  mean_call m (VLin t terms) = if Dt D t then Some (total d (expand_terms terms)) else None.
Proof.
move=> ht hk; rewrite mdef_call // tyL s4_okL //; case h: (Dt _ _) => //.
by rewrite s4_callL.
Qed.
Lemma mean_ML t terms : pf -> atom_type t -> terms_ok (@atom F P) t terms ->
  mean_call m (VMeas (VLin t terms)) = if Dt D t then Some (total d (expand_terms terms)) else None.
Proof.
move=> hp ht hk; rewrite mdef_call // tyML s4_okML //; case h: (Dt _ _) => //.
by rewrite s4_callML.
Qed.
Lemma total_undef t terms : terms_ok (@atom F P) t terms -> ~~ Dt D t -> total d (expand_terms terms) = 0.
Proof.
move=> + hd; elim: terms => [|[k w] rest IH]; first by rewrite total_nil.
case=> [[aw tw] /IH hr]; rewrite expand_cons total_cat hr addr0 total_scale.
case: aw tw hd => [b p|bs b p hin] <- /= hd; rewrite /total big_seq1 /= mul1r (mm_undef M) ?mulr0 //.
by apply: contra hd => dd; rewrite has_map; apply/hasP; exists b.
Qed.
End Layers.

Lemma Dt_or D D' t : Dt (fun a => D a || D' a) t = Dt D t || Dt D' t.
Proof. by case: t => //= ts; elim: ts => //= t ts ->; case: t => //= b; rewrite orbACA. Qed.
Lemma leaf_mmodels D (k : nat -> P -> F) : mmodels (m_on_classes D k) D (m_meaning (MLeaf D k)) true.
Proof.
split=> //.
- by move=> [] [a p] //= ->.
- by move=> [a p] /= /negbTE ->.
Qed.
Lemma sum_mmodels l r Dl Dr dl dr pl pr :
  mmodels l Dl dl pl -> mmodels r Dr dr pr ->
  mmodels (m_sum_of l r) (fun a => Dl a || Dr a) (fun x => dl x + dr x) (pl && pr).
Proof.
move=> Ml Mr.
have okT f a : mok (m_sum_of l r) (T f a) = Dl a || Dr a.
  have -> : mok (m_sum_of l r) (T f a) = mok (m_default l) (T f a) || mok (m_default r) (T f a) by [].
  by rewrite !mdef_ok ?(s4_okT Ml) ?(s4_okT Mr) //; case: f.
have callE x : mcall (m_sum_of l r) x =
       match mok (m_default l) (tyof x), mok (m_default r) (tyof x) with
       | true, true => match mean_call l x, mean_call r x with
                       | Some a, Some b => Some (a + b) | _, _ => None end
       | true, false => mean_call l x
       | false, true => mean_call r x
       | false, false => None
       end by [].
split.
- by move=> a; exact: (okT false).
- by move=> a; rewrite -[TMeas _]/(T true a) okT.
- by move=> t ht; rewrite Dt_or /m_sum_of {1}/mok !mdef_ok // (s4_okL Ml ht) (s4_okL Mr ht).
- by move=> t ht; rewrite Dt_or /m_sum_of {1}/mok !mdef_ok // (s4_okML Ml ht) (s4_okML Mr ht).
- move=> f x; rewrite okT callE tyV !mdef_ok; try by case: (f).
  rewrite (s4_okT Ml) (s4_okT Mr) (mean_V Ml) (mean_V Mr).
  have := mm_undef Ml (x := x); have := mm_undef Mr (x := x).
  by case: (Dl _); case: (Dr _) => //= h1 h2 _; [rewrite h1 // addr0|rewrite h2 // add0r].
- move=> t terms /andP[hpl hpr] ht hk; rewrite {1}/m_sum_of {1}/mok callE tyML !mdef_ok //.
  rewrite (s4_okML Ml ht) (s4_okML Mr ht) (mean_ML Ml) // (mean_ML Mr) // total_plus.
  have := total_undef Ml hk; have := total_undef Mr hk.
  by case: (Dt Dl _); case: (Dt Dr _) => //= h1 h2 _; [rewrite h1 // addr0|rewrite h2 // add0r].
- by move=> x; rewrite negb_or => /andP[h1 h2]; rewrite (mm_undef Ml) // (mm_undef Mr) // addr0.
Qed.
Lemma product_mmodels l r Dl Dr dl dr pl pr :
  mmodels l Dl dl pl -> mmodels r Dr dr pr ->
  mmodels (m_product_of l r) (fun a => Dl a || Dr a)
    (fun x => match Dl x.1, Dr x.1 with
              | true, true => dl x * dr x | true, false => dl x | false, true => dr x | false, false => 0 end) false.
Proof.
move=> Ml Mr.
have okT f a : mok (m_product_of l r) (T f a) = Dl a || Dr a.
  have -> : mok (m_product_of l r) (T f a) = mok (m_default l) (T f a) || mok (m_default r) (T f a) by [].
  by rewrite !mdef_ok ?(s4_okT Ml) ?(s4_okT Mr) //; case: f.
have callE x : mcall (m_product_of l r) x =
       match mok (m_default l) (tyof x), mok (m_default r) (tyof x) with
       | true, true => times (mean_call l x) (mean_call r x)
       | true, false => mean_call l x
       | false, true => mean_call r x
       | false, false => None
       end by [].
split.
- by move=> a; exact: (okT false).
- by move=> a; rewrite -[TMeas _]/(T true a) okT.
- by move=> t ht; rewrite Dt_or /m_product_of {1}/mok !mdef_ok // (s4_okL Ml ht) (s4_okL Mr ht).
- by move=> t ht; rewrite Dt_or /m_product_of {1}/mok !mdef_ok // (s4_okML Ml ht) (s4_okML Mr ht).
- move=> f x; rewrite okT callE tyV !mdef_ok; try by case: (f).
  rewrite (s4_okT Ml) (s4_okT Mr) (mean_V Ml) (mean_V Mr).
  by case: (Dl _); case: (Dr _) => // _; rewrite timesE.
- by [].
- by move=> x; case: (Dl _); case: (Dr _).
Qed.
Lemma m_build_models (e : mean_expr F P) : mmodels (m_build e) (m_defined_on e) (m_meaning e) (product_free e).
Proof.
elim: e => [D k|l IHl r IHr|l IHl r IHr] /=.
- exact: leaf_mmodels.
- exact: sum_mmodels.
- exact: (product_mmodels IHl IHr).
Qed.

Theorem mean_call_plain (e : mean_expr F P) (x : val) : plain x -> product_free e || ~~ measured_combination x ->
  mean_call (m_build e) x = if has (m_defined_on e) (classes_of (tyof x)) then Some (mean_of e x) else None.
Proof.
have M := m_build_models e.
have tot y : mean_of e y = total (m_meaning e) (expand y) by [].
have dtE t : atom_type t -> has (m_defined_on e) (classes_of (TLin t)) = Dt (m_defined_on e) t.
  case=> [[b ->]|[bs ->]] /=; first by rewrite orbF.
  by elim: bs => //= b bs ->.
have tyE t terms : classes_of (tyof (VMeas (VLin t terms))) = classes_of (TLin t) by [].
rewrite tot; case=> [b p|b p|t terms ht hk|t terms ht hk] hp.
- rewrite -[VBase F b p]/(V F false (b, p)) totalV (mean_V M) /= orbF.
  by [].
- rewrite -[VMeas (VBase F b p)]/(V F true (b, p)) totalV (mean_V M) /= orbF.
  by [].
- by rewrite (mean_L M) // expandLin tyL dtE.
- rewrite (mean_ML M) // ?expandMeasLin ?tyE ?dtE //.
  by case/orP: hp.
Qed.
Lemma over_classes a (x : val) : over_class a x -> classes_of (tyof x) = [:: a].
Proof. by case. Qed.
Theorem mean_call_over_class (e : mean_expr F P) a (x : val) : over_class a x -> product_free e || ~~ measured_combination x ->
  mean_call (m_build e) x = if m_defined_on e a then Some (mean_of e x) else None.
Proof. by move=> ox hp; rewrite (mean_call_plain (over_plain ox) hp) (over_classes ox) /= orbF. Qed.
Lemma mean_undef (e : mean_expr F P) a (x : val) : over_class a x -> ~~ m_defined_on e a -> mean_of e x = 0.
Proof.
have M := m_build_models e.
move=> /over_expand hx nd; rewrite /mean_of.
elim: (expand x) hx => [|t l IH] hx; first by rewrite big_nil.
inversion hx as [|? ? h1 h2]; subst; rewrite big_cons IH // addr0.
by rewrite (mm_undef M) // mulr0.
Qed.
Theorem mean_call_variant (e : mean_expr F P) a ts cs (x : val) : over_class a x -> alternatives ts cs ->
  product_free e || ~~ measured_combination x ->
  mean_call (m_build e) (VVar ts x) = if has (m_defined_on e) cs then Some (mean_of e x) else None.
Proof.
move=> ox ha hp; have M := m_build_models e.
rewrite /mean_call /m_default; set s := m_measurement _.
have so X b : class_of_type X = Some b -> mok s X = m_defined_on e b.
  case/class_tyP => [[f ->]|[->|->]].
  - exact: (s4_okT M).
  - by apply: (s4_okL M (t := TBase b)); left; exists b.
  - by apply: (s4_okML M (t := TBase b)); left; exists b.
have hE : has (mok s) ts = has (m_defined_on e) cs.
  move: ha; rewrite /alternatives; elim: ts cs => [|t ts IH] [|k cs] //= [ht /IH ->].
  by congr (_ || _); exact: (so _ _ ht).
have -> : mok (m_variant s) (tyof (VVar ts x)) = has (mok s) ts by [].
have -> : mcall (m_variant s) (VVar ts x) =
  if has (mok s) ts then (if mok s (tyof x) then mcall s x else Some 0) else None by [].
rewrite hE; case: (has _ cs) => //.
have := mean_call_over_class ox hp; rewrite (mdef_call (m_build e)); last by case: ox.
rewrite -/s (so _ _ (over_ty ox)); case dd: (m_defined_on e a) => // _.
by rewrite (mean_undef ox) // dd.
Qed.
End Means.

(* ---- matrices times features ---- *)
Section Products.
Variable F : fieldType.
Variable P : Type.
Notation val := (val F P).
Notation point := (nat * P)%type.
Notation object := (bool * point)%type.

(* a linear function of a feature *)
Section Linear.
Variable h : seq (F * object) -> F.
Hypothesis h_nil : h [::] = 0.
Hypothesis h_cat : forall A B, h (A ++ B) = h A + h B.
Hypothesis h_scale : forall k A, h [seq (k * a.1, a.2) | a <- A] = k * h A.
Notation H x := (h (expand x)).
Notation Ht x := (h (expand_terms x)).

Lemma map_scale1 (w : F) (A : seq (F * object)) : h [seq (w * a.1, a.2) | a <- A] = w * h A.
Proof. exact: h_scale. Qed.
Lemma Ht_cat xs ys : Ht (xs ++ ys) = Ht xs + Ht ys.
Proof. by rewrite /expand_terms map_cat flatten_cat h_cat. Qed.
Lemma Ht_scale k (terms : seq (F * val)) : Ht [seq (k * cw.1, cw.2) | cw <- terms] = k * Ht terms.
Proof.
elim: terms => [|[w x] rest IH] /=; first by rewrite h_nil mulr0.
by rewrite !expand_cons !h_cat !h_scale IH mulrDr mulrA.
Qed.
Lemma H_entry k (f : val) : Ht (entry_terms k f) = k * H f.
Proof.
have dflt : Ht [:: (k, f)] = k * H f by rewrite expand_cons h_cat h_scale h_nil addr0.
by case: f dflt => // t terms _; rewrite expandLin Ht_scale.
Qed.
Lemma size_push i new (out : seq (seq (F * val))) : size (push_at i new out) = size out.
Proof. by elim: out i => [|o out IH] [|i] //=; rewrite IH. Qed.
Lemma nth_push i j new (out : seq (seq (F * val))) : (j < size out)%N ->
  Ht (nth [::] (push_at i new out) j) = Ht (nth [::] out j) + (if i == j then Ht new else 0).
Proof.
elim: out i j => [|o out IH] [|i] [|j] //= hj.
- by rewrite Ht_cat.
- by rewrite addr0.
- by rewrite addr0.
- by rewrite IH.
Qed.
Lemma nth_errorE T (x0 : T) (l : seq T) i : List.nth_error l i = if (i < size l)%N then Some (nth x0 l i) else None.
Proof. by elim: l i => [|y l IH] [|i] //=; rewrite IH. Qed.

Variable x0 : val.
Lemma multiplyP entries (fs : seq val) out : all (fun en => (en.1.2 < size fs)%N) entries ->
  exists2 rows, multiply entries fs out = Some rows & size rows = size out /\
  forall i, (i < size out)%N -> Ht (nth [::] rows i) = Ht (nth [::] out i) +
     \sum_(en <- entries | en.1.1 == i) en.2 * H (nth x0 fs en.1.2).
Proof.
elim: entries out => [|[[r k] v] rest IH] out /=.
  by move=> _; exists out => //; split=> // i _; rewrite big_nil addr0.
case/andP=> hc hr; rewrite (nth_errorE x0) hc.
case: (IH (push_at r (entry_terms v (nth x0 fs k)) out) hr) => rows -> []; rewrite size_push => sz hrow.
exists rows => //; split=> // i hi; rewrite hrow // nth_push // H_entry big_cons /= -addrA; congr (_ + _).
by case: eqP => _; rewrite ?add0r.
Qed.
Lemma multiply_none entries (fs : seq val) out : ~~ all (fun en => (en.1.2 < size fs)%N) entries ->
  multiply entries fs out = None.
Proof.
elim: entries out => [|[[r k] v] rest IH] out //=; rewrite (nth_errorE x0).
by case: ltnP => //= _; exact: IH.
Qed.
Lemma sum_entries (m : sparse F) n i (g : nat -> F) : all (fun en => (en.1.2 < n)%N) (s_entries m) ->
  \sum_(en <- s_entries m | en.1.1 == i) en.2 * g en.1.2 = \sum_(j < n) entry m i j * g j.
Proof.
rewrite /entry; elim: (s_entries m) => [|[[r k] v] rest IH] /=.
  by move=> _; rewrite big_nil big1 // => j _; rewrite big_nil mul0r.
case/andP=> hk /IH {}IH; rewrite big_cons /=.
transitivity ((if r == i then v * g k else 0) + \sum_(j < n) (\sum_(e <- rest | (e.1.1 == i) && (e.1.2 == j)) e.2) * g j).
  by rewrite -IH; case: (r == i); rewrite ?add0r.
have -> : (if r == i then v * g k else 0) = \sum_(j < n) (if (r == i) && (k == j) then v else 0) * g j.
  case: (r == i) => /=; last by rewrite big1 // => j _; rewrite mul0r.
  rewrite (bigD1 (Ordinal hk)) //= eqxx big1 ?addr0 // => j nj.
  by case: eqP => [ek|_]; rewrite ?mul0r //; move: nj; rewrite -val_eqE /= ek eqxx.
rewrite -big_split; apply: eq_bigr => j _ /=.
by rewrite big_cons /= -mulrDl; case: (_ && _); rewrite ?add0r.
Qed.
End Linear.

(* what may be multiplied: objects or variants of one type t, or linear combinations of them *)
Lemma entry_terms_ok t k f : factor t f -> terms_ok (@atom F P) t (entry_terms k f).
Proof.
case=> [af tf|terms -> hk] /=.
  by case: af tf => [b p|bs b p hin] <- /=; split=> //; split=> //; constructor.
by elim: terms hk => [|[w x] rest IH] //= [h1 /IH h2].
Qed.
Lemma terms_ok_cat (Q : val -> Prop) t xs ys : terms_ok Q t xs -> terms_ok Q t ys -> terms_ok Q t (xs ++ ys).
Proof. by elim: xs => [|[k w] xs IH] //= [h1 h2] /(IH h2). Qed.
Lemma push_ok t i new out : terms_ok (@atom F P) t new -> List.Forall (terms_ok (@atom F P) t) out ->
  List.Forall (terms_ok (@atom F P) t) (push_at i new out).
Proof.
move=> hn; elim: out i => [|o out IH] i ho; first by case: i.
inversion ho; subst; case: i => [|i] /=; constructor=> //; last exact: IH.
exact: terms_ok_cat.
Qed.
Lemma multiply_ok t entries fs out rows : List.Forall (factor t) fs -> List.Forall (terms_ok (@atom F P) t) out ->
  multiply entries fs out = Some rows -> List.Forall (terms_ok (@atom F P) t) rows.
Proof.
move=> hf; elim: entries out => [|[[r k] v] rest IH] out ho /=; first by case=> <-.
case en: (List.nth_error fs k) => [f|] // /IH; apply; apply: push_ok => //.
apply: entry_terms_ok; exact: (proj1 (List.Forall_forall _ _) hf _ (List.nth_error_In _ _ en)).
Qed.

Lemma multiply_size entries (fs : seq val) out rows : multiply entries fs out = Some rows -> size rows = size out.
Proof.
elim: entries out => [|[[r k] v] rest IH] out /=; first by case=> ->.
by case: (List.nth_error fs k) => [f|] // /IH ->; rewrite size_push.
Qed.
Lemma sparse_times_spec t (m : sparse F) (fs : seq val) : List.Forall (factor t) fs ->
  all (fun en => (en.1.2 < size fs)%N) (s_entries m) ->
  exists2 rows, sparse_times t m fs = Some rows &
  [/\ size rows = s_rows m, List.Forall (fun r => exists2 terms, r = VLin t terms & terms_ok (@atom F P) t terms) rows &
   forall h, h [::] = 0 -> (forall A B, h (A ++ B) = h A + h B) ->
     (forall k A, h [seq (k * a.1, a.2) | a <- A] = k * h A) ->
     forall x0 y0 i, (i < s_rows m)%N ->
     h (expand (nth x0 rows i)) = \sum_(j < size fs) entry m i j * h (expand (nth y0 fs j))].
Proof.
move=> hf hc.
have ex : exists rows, multiply (s_entries m) fs (nseq (s_rows m) [::]) = Some rows.
  elim: (s_entries m) (nseq _ _) hc => [|[[r k] v] rest IH] out /=; first by exists out.
  case/andP=> hk /IH hr.
  case en: (List.nth_error fs k) => [f|]; first exact: hr.
  by move/List.nth_error_None: en; rewrite -[List.length fs]/(size fs) => /leP; rewrite leqNgt hk.
case: ex => rows er; exists (map (VLin t) rows); first by rewrite /sparse_times er.
have ho : List.Forall (terms_ok (@atom F P) t) (nseq (s_rows m) [::]).
  by elim: (s_rows m) => [|n IH] /=; constructor.
have hr := multiply_ok hf ho er.
have sz : size rows = s_rows m.
  by rewrite (multiply_size er) size_nseq.
split.
- by rewrite size_map.
- by elim: hr => [|r l h1 h2 IH] /=; constructor=> //; exists r.
- move=> h h0 hcat hsc x0 y0 i hi.
  rewrite (nth_map [::]) ?sz // expandLin.
  have [rows' er' [_ hrow]] := multiplyP h0 hcat hsc y0 (nseq (s_rows m) [::]) hc.
  move: er'; rewrite er => -[->].
  rewrite hrow ?size_nseq // nth_nseq hi h0 add0r.
  exact: (sum_entries i (fun j => h (expand (nth y0 fs j))) hc).
Qed.

Lemma sparse_times_none t (m : sparse F) (fs : seq val) :
  ~~ all (fun en => (en.1.2 < size fs)%N) (s_entries m) -> sparse_times t m fs = None.
Proof.
move=> h; rewrite /sparse_times; suff -> : multiply (s_entries m) fs (nseq (s_rows m) [::]) = None by [].
elim: (s_entries m) (nseq _ _) h => [|[[r k] v] rest IH] out //=.
case: ltnP => [lk|gk] /= h; first by case: (List.nth_error fs k) => // f; exact: IH.
by rewrite (proj2 (List.nth_error_None fs k)) //; apply/leP.
Qed.

(* the covariance with a fixed feature, and the mean, are linear functions *)
Lemma cov_rows (e : cov_expr F P) t (m : sparse F) fs rows y x0 y0 i : List.Forall (factor t) fs ->
  all (fun en => (en.1.2 < size fs)%N) (s_entries m) -> sparse_times t m fs = Some rows -> (i < s_rows m)%N ->
  covariance e (nth x0 rows i) y = \sum_(j < size fs) entry m i j * covariance e (nth y0 fs j) y.
Proof.
move=> hf hc er hi; case: (sparse_times_spec hf hc) => rows'; rewrite er => -[<-] [_ _ h].
exact: (h (fun A => pairing e A (expand y)) (pairing_nil _ _) (fun A B => pairing_cat _ A B _) (fun k A => pairing_scale _ k A _) x0 y0 i hi).
Qed.
Lemma mean_rows (e : mean_expr F P) t (m : sparse F) fs rows x0 y0 i : List.Forall (factor t) fs ->
  all (fun en => (en.1.2 < size fs)%N) (s_entries m) -> sparse_times t m fs = Some rows -> (i < s_rows m)%N ->
  mean_of e (nth x0 rows i) = \sum_(j < size fs) entry m i j * mean_of e (nth y0 fs j).
Proof.
move=> hf hc er hi; case: (sparse_times_spec hf hc) => rows'; rewrite er => -[<-] [_ _ h].
exact: (h (total (m_meaning e)) (total_nil _) (total_cat _) (total_scale _) x0 y0 i hi).
Qed.

Lemma entry_view n p (M : 'M[F]_(n, p)) (i : 'I_n) (j : 'I_p) : entry (sparse_view M) i j = M i j.
Proof.
rewrite /entry /= big_map big_filter_cond big_mkcond big_allpairs_dep /= big_enum /=.
rewrite (bigD1 j) //= big_enum (bigD1 i) //= !eqxx !andbT.
rewrite big1 ?addr0; last by move=> i' ni; rewrite (negbTE (_ : nat_of_ord i' != i)) ?andbF // -?val_eqE.
rewrite big1 ?addr0; last first.
  move=> j' nj; rewrite big_enum big1 // => i' _ /=.
  by have -> : (nat_of_ord j' == j) = false; [apply/negbTE|rewrite !andbF].
by case: eqP => // ->.
Qed.

(* dense matrices: M K N^T and M m *)
Lemma view_cols n p (M : 'M[F]_(n, p)) : all (fun en => (en.1.2 < p)%N) (s_entries (sparse_view M)).
Proof. by apply/allP => en /mapP[[j i] _ ->] /=. Qed.
Lemma dense_times_spec t n p (M : 'M[F]_(n, p)) (fs : seq val) : List.Forall (factor t) fs -> size fs = p ->
  exists2 rows, dense_times t M fs = Some rows &
  size rows = n /\ List.Forall (fun r => exists2 terms, r = VLin t terms & terms_ok (@atom F P) t terms) rows.
Proof.
move=> hf sz; have hc : all (fun en => (en.1.2 < size fs)%N) (s_entries (sparse_view M)) by rewrite sz view_cols.
by case: (sparse_times_spec hf hc) => rows er [h1 h2 _]; exists rows.
Qed.
Lemma dense_rows (h : val -> F) t n p (M : 'M[F]_(n, p)) (fs rows : seq val) x0 :
  (forall (m : sparse F) fs rows x0 y0 i, List.Forall (factor t) fs ->
    all (fun en => (en.1.2 < size fs)%N) (s_entries m) -> sparse_times t m fs = Some rows -> (i < s_rows m)%N ->
    h (nth x0 rows i) = \sum_(j < size fs) entry m i j * h (nth y0 fs j)) ->
  List.Forall (factor t) fs -> size fs = p -> dense_times t M fs = Some rows ->
  \col_(i < n) h (nth x0 rows i) = M *m \col_(j < p) h (nth x0 fs j).
Proof.
move=> H hf sz er; apply/colP => i; rewrite !mxE.
have hc : all (fun en => (en.1.2 < size fs)%N) (s_entries (sparse_view M)) by rewrite sz view_cols.
rewrite (H _ _ _ _ x0 _ hf hc er (ltn_ord i)).
move: hf er hc; rewrite sz => _ _ _; apply: eq_bigr => j _.
by rewrite entry_view mxE.
Qed.
Theorem dense_means (e : mean_expr F P) t n p (M : 'M[F]_(n, p)) (fs rows : seq val) x0 :
  List.Forall (factor t) fs -> size fs = p -> dense_times t M fs = Some rows ->
  \col_(i < n) mean_of e (nth x0 rows i) = M *m \col_(j < p) mean_of e (nth x0 fs j).
Proof. by apply: dense_rows => m fs' rows' x0' y0 i; exact: mean_rows. Qed.
Theorem dense_covariances (e : cov_expr F P) t u n p q r (M : 'M[F]_(n, p)) (N : 'M[F]_(q, r))
    (fs gs rows cols : seq val) x0 : leaves_symmetric e ->
  List.Forall (factor t) fs -> size fs = p -> dense_times t M fs = Some rows ->
  List.Forall (factor u) gs -> size gs = r -> dense_times u N gs = Some cols ->
  \matrix_(i < n, j < q) covariance e (nth x0 rows i) (nth x0 cols j) =
  M *m (\matrix_(k < p, l < r) covariance e (nth x0 fs k) (nth x0 gs l)) *m N^T.
Proof.
move=> es hf sf ef hg sg eg; apply/matrixP => i j; rewrite !mxE.
have rowE y : covariance e (nth x0 rows i) y = \sum_k M i k * covariance e (nth x0 fs k) y.
  have := dense_rows (h := fun x => covariance e x y) x0 (fun m fs' rows' x0' y0 i => @cov_rows e t m fs' rows' y x0' y0 i) hf sf ef.
  by move=> /colP/(_ i); rewrite !mxE => ->; apply: eq_bigr => k _; rewrite mxE.
have colE x : covariance e x (nth x0 cols j) = \sum_l N j l * covariance e x (nth x0 gs l).
  rewrite (cov_sym es).
  have := dense_rows (h := fun y => covariance e y x) x0 (fun m fs' rows' x0' y0 i => @cov_rows e u m fs' rows' x x0' y0 i) hg sg eg.
  by move=> /colP/(_ j); rewrite !mxE => ->; apply: eq_bigr => k _; rewrite mxE (cov_sym es).
rewrite rowE; under eq_bigr do rewrite colE mulr_sumr.
rewrite exchange_big /=; apply: eq_bigr => l _; rewrite !mxE mulr_suml; apply: eq_bigr => k _.
by rewrite !mxE mulrCA mulrC.
Qed.
End Products.
