(* Covariance and mean functions: dispatch over measurements, linear combinations and variants, and
   positive semi-definiteness (C50, C54, C55). *)
From mathcomp Require Import all_ssreflect all_algebra.
From Verif Require Import GpSpec PsdProofs CallerModel CallerSpec CallerProofs CallerProofs2 CallerProofs3 CallerPsd CallerExamples.
Set Implicit Arguments.
Unset Strict Implicit.
Unset Printing Implicit Defensive.
Import Order.TTheory GRing.Theory Num.Theory.
Local Open Scope ring_scope.

(* ---- C54 ---- *)
(* A covariance function called with features that are not variants (objects, measurements, linear
   combinations of objects or variants, measurements of those) gives the double sum. *)
Theorem C54_double_sum (F : fieldType) (P : Type) (e : cov_expr F P) (x y : val F P) (v : F) :
  leaves_symmetric e -> plain x -> plain y -> scaling_respected e x y ->
  cov_call (build e) x y = Some v -> v = covariance e x y.
Proof. by move=> es hx hy hs; exact: cov_call_plain. Qed.
Print Assumptions C54_double_sum.
(* linear combinations of variants of the classes 0 and 1 *)
Definition ex_per : cov_expr rat_fieldType nat := Leaf (fun a b => a == b) (fun _ p _ q => same p q).
Example C54_double_sum_meets :
  let ts := [:: TBase 0; TBase 1] in
  let x : ratval := VLin (TVar ts) [:: (2%:R, VVar ts (obj 0 1)); (5%:R, VVar ts (obj 1 1))] in
  leaves_symmetric ex_per /\ plain x /\ scaling_respected ex_per x x /\ cov_call (build ex_per) x x = Some 29%:R.
Proof.
split; [by move=> a p b q _ _; exact: same_sym|split; [|split]].
- apply: PlainLin; first by right; exists [:: 0; 1]%N.
  by split; [split=> //; apply: (@AtomVar _ _ [:: 0; 1]%N)|split=> //; split=> //; apply: (@AtomVar _ _ [:: 0; 1]%N)].
- by [].
- by apply/eqP; vm_compute.
Qed.

(* For features over one class each, the call compiles exactly if the function is defined for the two
   classes. *)
Theorem C54_defined (F : fieldType) (P : Type) (e : cov_expr F P) a b (x y : val F P) :
  leaves_symmetric e -> over_class a x -> over_class b y -> scaling_respected e x y ->
  cov_call (build e) x y = if defined_on e a b then Some (covariance e x y) else None.
Proof. by move=> es ox oy hs; exact: (cov_call_over_class es ox oy hs). Qed.
Print Assumptions C54_defined.
Example C54_defined_meets :
  over_class 0 lc /\ over_class 0 (VMeas lc) /\ cov_call (build ex_gp) lc (VMeas lc) = Some 3%:R.
Proof.
have h : terms_ok (@is_class_object rat_fieldType nat) (TBase 0) [:: (2%:R, obj 0 1%N); (-1, obj 0 2)].
  by split; [split=> //; exists 0%N, 1%N|split=> //; split=> //; exists 0%N, 2%N].
split; first exact: OverLin.
split; first exact: OverMeasLin.
by apply/eqP; vm_compute.
Qed.

(* Variants: alternatives the function is not defined for have covariance 0. *)
Theorem C54_variants (F : fieldType) (P : Type) (e : cov_expr F P) a b ts cs us ds (x y : val F P) :
  leaves_symmetric e -> over_class a x -> over_class b y -> alternatives ts cs -> alternatives us ds ->
  scaling_respected e x y ->
  cov_call (build e) (VVar ts x) y = (if has (defined_on e b) cs then Some (covariance e x y) else None) /\
  cov_call (build e) x (VVar us y) = (if has (defined_on e a) ds then Some (covariance e x y) else None) /\
  cov_call (build e) (VVar ts x) (VVar us y) =
    if [&& ~~ nilp cs, ~~ nilp ds, all (fun k => defined_on e k k) cs, all (fun k => defined_on e k k) ds
         & all (fun k => has (defined_on e k) ds) cs]
    then Some (covariance e x y) else None.
Proof.
move=> es ox oy ha hb hs; split; [exact: (cov_call_variant_l es ox oy ha hs)|split].
  exact: (cov_call_variant_r es ox oy hb hs).
exact: (cov_call_variants es ox oy ha hb hs).
Qed.
Print Assumptions C54_variants.
Example C54_variants_meets :
  let ts := [:: TBase 0; TLin (TBase 0); TMeas (TBase 1)] in
  alternatives ts [:: 0; 0; 1]%N /\ cov_call (build ex_k) (VVar ts lc) (obj 0 1) = Some (3%:R / 2%:R).
Proof. by split=> //; apply/eqP; vm_compute. Qed.

(* Two linear combinations of objects, in terms of calls only. *)
Theorem C54_bilinear (F : fieldType) (P : Type) (e : cov_expr F P) a b (k : P -> P -> F) (xs ys : seq (F * P)) :
  leaves_symmetric e -> defined_on e a b ->
  (forall p q, cov_call (build e) (VBase F a p) (VBase F b q) = Some (k p q)) ->
  cov_call (build e) (VLin (TBase a) [seq (x.1, VBase F a x.2) | x <- xs])
                     (VLin (TBase b) [seq (y.1, VBase F b y.2) | y <- ys])
  = Some (\sum_(x <- xs) \sum_(y <- ys) x.1 * y.1 * k x.2 y.2).
Proof.
move=> es dd hk.
have tok c (zs : seq (F * P)) : terms_ok (@is_class_object F P) (TBase c) [seq (x.1, VBase F c x.2) | x <- zs].
  by elim: zs => [|z zs IH] //=; split=> //; split=> //; exists c, z.2.
have ex c (zs : seq (F * P)) : expand (VLin (TBase c) [seq (x.1, VBase F c x.2) | x <- zs]) = [seq (x.1, (false, (c, x.2))) | x <- zs].
  by rewrite expandLin; elim: zs => [|z zs IH] //; rewrite [map _ (z :: zs)]/= expand_cons IH /= mulr1.
rewrite (cov_call_over_class es (OverLin (tok a xs)) (OverLin (tok b ys))); last first.
  exact: (sr_LL e (class_atom (tok a xs)) (class_atom (tok b ys))).
rewrite dd /covariance !ex big_map; congr Some; apply: eq_bigr => x _; rewrite big_map; apply: eq_bigr => y _ /=.
have := cov_call_over_class es (OverBase F a x.2) (OverBase F b y.2).
rewrite hk dd => /(_ _)/Some_inj -> //; last by rewrite /scaling_respected /same_flags /= orbT.
by rewrite /covariance !big_seq1 /= !mul1r.
Qed.
Print Assumptions C54_bilinear.
Example C54_bilinear_meets : defined_on ex_gp 0 0 /\
  forall p q, cov_call (build ex_gp) (obj 0 p) (obj 0 q) = Some (same p q).
Proof.
split=> // p q.
rewrite (cov_call_over_class ex_gp_sym (OverBase _ 0 p) (OverBase _ 0 q)) //.
by rewrite /= /covariance !big_seq1 /= addr0 !mul1r.
Qed.

(* A matrix times features: the covariances of M * f and N * g are M K N^T. *)
Theorem C54_matrix_product (F : fieldType) (P : Type) (e : cov_expr F P) a b n p q r
    (M : 'M[F]_(n, p)) (N : 'M[F]_(q, r)) (fs gs : seq (val F P)) (K : 'M[F]_(p, r)) x0 :
  leaves_symmetric e -> defined_on e a b ->
  List.Forall (factor (TBase a)) fs -> size fs = p -> List.Forall (factor (TBase b)) gs -> size gs = r ->
  (forall k l, cov_call (build e) (nth x0 fs (k : 'I_p)) (nth x0 gs (l : 'I_r)) = Some (K k l)) ->
  exists rows cols, dense_times (TBase a) M fs = Some rows /\ dense_times (TBase b) N gs = Some cols /\
    size rows = n /\ size cols = q /\
    forall i j, cov_call (build e) (nth x0 rows (i : 'I_n)) (nth x0 cols (j : 'I_q)) = Some ((M *m K *m N^T) i j).
Proof.
move=> es dd hf sf hg sg hK.
have [rows er [sr_ okr]] := dense_times_spec M hf sf.
have [cols ec [sc okc]] := dense_times_spec N hg sg.
exists rows, cols; do 4!split=> //; move=> i j.
have ovf c (zs : seq (val F P)) k : List.Forall (factor (TBase c)) zs -> (k < size zs)%N ->
    over_class c (nth x0 zs k) /\ all (eqb false) (flags (nth x0 zs k)).
  move=> hz hk; have : factor (TBase c) (nth x0 zs k).
    by elim: zs k hz hk => [|z zs IH] [|k] //= hz hk; inversion hz; subst; auto.
  case=> [az tz|terms -> ht]; last by split; [exact: OverLin (atom_class ht)|exact: flags_atoms ht].
  by case: az tz => [c' u|bs c' u _] //= [->]; split=> //; exact: OverBase.
have ovr c (zs : seq (val F P)) k : List.Forall (fun r => exists2 terms, r = VLin (TBase c) terms & terms_ok (@atom F P) (TBase c) terms) zs ->
    (k < size zs)%N -> over_class c (nth x0 zs k) /\ all (eqb false) (flags (nth x0 zs k)).
  move=> hz hk; apply: ovf hk; elim: hz => [|z l [terms -> ht] _ IH]; constructor=> //.
  exact: FactorLin ht.
have resp (x y : val F P) : all (eqb false) (flags x) -> all (eqb false) (flags y) -> scaling_respected e x y.
  move=> /allP hx hy; apply/orP; right; apply/allP => f /hx /eqP <-; exact: hy.
have [oi fi] := ovr a rows i okr (eq_ind_r (fun m => (i < m)%N) (ltn_ord i) sr_).
have [oj fj] := ovr b cols j okc (eq_ind_r (fun m => (j < m)%N) (ltn_ord j) sc).
rewrite (cov_call_over_class es oi oj (resp _ _ fi fj)) dd; congr Some.
have := dense_covariances x0 es hf sf er hg sg ec => /matrixP/(_ i j).
rewrite mxE => ->; congr ((M *m _ *m _) i j); apply/matrixP => k l; rewrite mxE.
have [ok_ fk] := ovf a fs k hf (eq_ind_r (fun m => (k < m)%N) (ltn_ord k) sf).
have [ol fl] := ovf b gs l hg (eq_ind_r (fun m => (l < m)%N) (ltn_ord l) sg).
have := cov_call_over_class es ok_ ol (resp _ _ fk fl); rewrite dd hK => /Some_inj -> //.
Qed.
Print Assumptions C54_matrix_product.
Example C54_matrix_product_meets :
  List.Forall (factor (TBase 0)) [:: obj 0 1; lc] /\
  forall k l : 'I_2, exists v, cov_call (build ex_gp) (nth lc [:: obj 0 1; lc] k) (nth lc [:: obj 0 1; lc] l) = Some v.
Proof.
split; last first.
  move=> k l; case h: (cov_call _ _ _) => [v|]; first by exists v.
  move: h; case: k => [[|[|k]] hk] //; case: l => [[|[|l]] hl] // /eqP; by vm_compute.
constructor; [by apply: FactorAtom => //; constructor|constructor; [|by constructor]].
by apply: (@FactorLin _ _ _ _ [:: (2%:R, obj 0 1%N); (-1, obj 0 2)]) => //; do 2!(split; [by split=> //; constructor|]).
Qed.
(* sparse matrices, duplicates of an entry adding up, and means *)
Theorem C54_sparse_product (F : fieldType) (P : Type) (e : cov_expr F P) (m : mean_expr F P) t
    (s : sparse F) (fs : seq (val F P)) x0 y0 :
  List.Forall (factor t) fs ->
  if all (fun entry => (entry.1.2 < size fs)%N) (s_entries s) then
    exists rows, sparse_times t s fs = Some rows /\ size rows = s_rows s /\
    forall i, (i < s_rows s)%N ->
      (exists2 terms, nth x0 rows i = VLin t terms & terms_ok (@atom F P) t terms) /\
      (forall y, covariance e (nth x0 rows i) y = \sum_(j < size fs) entry s i j * covariance e (nth y0 fs j) y) /\
      mean_of m (nth x0 rows i) = \sum_(j < size fs) entry s i j * mean_of m (nth y0 fs j)
  else sparse_times t s fs = None.
Proof.
move=> hf; case: ifP => hc; last by apply: sparse_times_none; rewrite hc.
have [rows er [sz hr _]] := sparse_times_spec hf hc; exists rows; do 2!split=> //; move=> i hi; split; [|split].
- move: hi; rewrite -sz; elim: hr i => [|z l hz _ IH] [|i] //= hi; exact: IH.
- by move=> y; exact: (cov_rows e y x0 y0 hf hc er hi).
- exact: (mean_rows m x0 y0 hf hc er hi).
Qed.
Print Assumptions C54_sparse_product.
Example C54_sparse_product_meets :
  let s : sparse rat_fieldType := Sparse 2 2 [:: (0%N, 0%N, 1); (1%N, 0%N, 2%:R); (1%N, 1%N, -1)] in
  exists rows, sparse_times (TBase 0) s [:: obj 0 1; obj 0 2] = Some rows /\ nth lc rows 1 = lc.
Proof. by eexists; split; [reflexivity|]. Qed.
Theorem C54_matrix_mean (F : fieldType) (P : Type) (m : mean_expr F P) a n p
    (M : 'M[F]_(n, p)) (fs : seq (val F P)) (mu : 'cV[F]_p) x0 :
  m_defined_on m a -> List.Forall (factor (TBase a)) fs -> size fs = p ->
  (forall k, mean_call (m_build m) (nth x0 fs (k : 'I_p)) = Some (mu k 0)) ->
  exists rows, dense_times (TBase a) M fs = Some rows /\ size rows = n /\
    forall i, mean_call (m_build m) (nth x0 rows (i : 'I_n)) = Some ((M *m mu) i 0).
Proof.
move=> dd hf sf hm.
have [rows er [sr_ okr]] := dense_times_spec M hf sf; exists rows; do 2!split=> //; move=> i.
have ovf c (zs : seq (val F P)) k : List.Forall (factor (TBase c)) zs -> (k < size zs)%N ->
    over_class c (nth x0 zs k) /\ ~~ measured_combination (nth x0 zs k).
  move=> hz hk; have : factor (TBase c) (nth x0 zs k).
    by elim: zs k hz hk => [|z zs IH] [|k] //= hz hk; inversion hz; subst; auto.
  case=> [az tz|terms -> ht]; last by split=> //; exact: OverLin (atom_class ht).
  by case: az tz => [c' u|bs c' u _] //= [->]; split=> //; exact: OverBase.
have okr' : List.Forall (factor (TBase a)) rows.
  elim: okr => [|z l [terms -> ht] _ IH]; constructor=> //; exact: FactorLin ht.
have mE (zs : seq (val F P)) k : List.Forall (factor (TBase a)) zs -> (k < size zs)%N ->
    mean_call (m_build m) (nth x0 zs k) = Some (mean_of m (nth x0 zs k)).
  move=> hz hk; have [o nm] := ovf _ _ _ hz hk.
  by rewrite (mean_call_over_class o) ?nm ?orbT // dd.
rewrite mE ?sr_ //; congr Some.
have := dense_means m x0 hf sf er => /colP/(_ i); rewrite mxE => ->; congr ((M *m _) i 0).
apply/colP => k; rewrite mxE; have := hm k.
by rewrite mE ?sf // => -[->].
Qed.
Print Assumptions C54_matrix_mean.
Definition ex_mean : mean_expr rat_fieldType nat :=
  MProduct (MLeaf (fun a => a == 0%N) (fun _ p => p%:R)) (MLeaf (fun _ => true) (fun _ p => p%:R + 1)).
Example C54_matrix_mean_meets : mean_call (m_build ex_mean) lc = Some (-2%:R).
Proof. by apply/eqP; vm_compute. Qed.

(* Mean functions: the combination of the means, except for products at measurements of combinations. *)
Theorem C54_mean (F : fieldType) (P : Type) (e : mean_expr F P) (x : val F P) :
  plain x -> product_free e || ~~ measured_combination x ->
  mean_call (m_build e) x = if has (m_defined_on e) (classes_of (tyof x)) then Some (mean_of e x) else None.
Proof. exact: mean_call_plain. Qed.
Print Assumptions C54_mean.
Theorem C54_mean_variant (F : fieldType) (P : Type) (e : mean_expr F P) a ts cs (x : val F P) :
  over_class a x -> alternatives ts cs -> product_free e || ~~ measured_combination x ->
  mean_call (m_build e) (VVar ts x) = if has (m_defined_on e) cs then Some (mean_of e x) else None.
Proof. exact: mean_call_variant. Qed.
Print Assumptions C54_mean_variant.
Example C54_mean_meets : plain lc /\ ~~ measured_combination lc /\ product_free ex_mean = false /\
  mean_call (m_build ex_mean) (VVar [:: TLin (TBase 0); TBase 3] lc) = Some (-2%:R).
Proof.
split; first by apply: (over_plain (b := 0%N)); case: C54_defined_meets.
by do 2!split=> //; apply/eqP; vm_compute.
Qed.
(* finding: the mean of Measurement<LinearCombination<X>> under a product of mean functions *)
Theorem C54_mean_product_refuted :
  exists (e : mean_expr rat_fieldType nat) (x : ratval), plain x /\
    mean_call (m_build e) (VMeas x) <> mean_call (m_build e) x.
Proof.
exists ex_mean, lc; split; first by case: C54_mean_meets.
by apply/eqP; vm_compute.
Qed.
Print Assumptions C54_mean_product_refuted.
(* finding: Constant has a _call_impl for every type. For Measurement<LinearCombination<X>> it ignores the
   coefficients and a sum with it drops the other term. *)
Theorem C54_constant_refuted :
  exists x : ratval, over_class 0 x /\
    cov_call (constant nat (3%:R : rat_fieldType)) x x = Some 441%:R /\
    cov_call (constant nat (3%:R : rat_fieldType)) (VMeas x) (VMeas x) = Some 9%:R /\
    cov_call (build ex_k) x x <> Some 0 /\
    cov_call (sum_of (constant nat (3%:R : rat_fieldType)) (build ex_k)) (VMeas x) (VMeas x) = Some 9%:R.
Proof.
exists (VLin (TBase 0) [:: (2%:R, obj 0 1%N); (5%:R, obj 0 2)]); split.
  by apply: OverLin; split; [split=> //; exists 0%N, 1%N|split=> //; split=> //; exists 0%N, 2%N].
by do 3?split; apply/eqP; vm_compute.
Qed.
Print Assumptions C54_constant_refuted.

(* ---- C55 ---- *)
(* an object, or a measurement of it *)
Definition measurement_if (F : fieldType) (P : Type) (measured : bool) (x : nat * P) : val F P :=
  if measured then VMeas (VBase F x.1 x.2) else VBase F x.1 x.2.
(* functions without a measurement_only part treat Measurement<X> like X *)
Theorem C55_like_unmeasured (F : fieldType) (P : Type) (e : cov_expr F P) f g (x y : nat * P) :
  leaves_symmetric e -> measurement_free e -> scaling_free e || (f == g) ->
  cov_call (build e) (measurement_if F f x) (measurement_if F g y) = cov_call (build e) (VBase F x.1 x.2) (VBase F y.1 y.2).
Proof.
move=> es mf hf; have M := build_models es.
have hm m : meaning e m x y = meaning e false x y.
  elim: e mf {es hf M} => [d k|l IHl r IHr|l IHl r IHr|e IH|u s e IH|e IH u s] //=.
  - by case/andP=> /IHl -> /IHr ->.
  - by case/andP=> /IHl -> /IHr ->.
  - by move=> /IH ->.
  - by move=> /IH ->.
rewrite -[VBase F x.1 _]/(V F false x) -[VBase F y.1 _]/(V F false y) -[measurement_if F f x]/(V F f x) -[measurement_if F g y]/(V F g y).
by rewrite !(default_call M) ?eqxx ?orbT // hm.
Qed.
Print Assumptions C55_like_unmeasured.
Example C55_like_unmeasured_meets : measurement_free (Product ex_k ex_both) /\
  cov_call (build (Product ex_k ex_both)) (VMeas (obj 0 1)) (obj 0 2) = Some (2%:R^-1).
Proof. by split=> //; apply/eqP; vm_compute. Qed.
(* measurement_only(c) is c for two measurements, 0 otherwise *)
Theorem C55_only_measured (F : fieldType) (P : Type) (e : cov_expr F P) f g (x y : nat * P) :
  leaves_symmetric e -> scaling_free e || (f == g) ->
  cov_call (build (OnlyMeasured e)) (measurement_if F f x) (measurement_if F g y) =
  if f && g then cov_call (build e) (VBase F x.1 x.2) (VBase F y.1 y.2)
  else if defined_on e x.1 y.1 then Some 0 else None.
Proof.
move=> es hf; have M := build_models es; have M' := build_models (e := OnlyMeasured e) es.
rewrite -[VBase F x.1 _]/(V F false x) -[VBase F y.1 _]/(V F false y) -[measurement_if F f x]/(V F f x) -[measurement_if F g y]/(V F g y).
rewrite (default_call M') // (default_call M) ?eqxx ?orbT //=.
by case: f {hf}; case: g.
Qed.
Print Assumptions C55_only_measured.
(* the covariance of objects and measurements under any expression *)
Theorem C55_measurements (F : fieldType) (P : Type) (e : cov_expr F P) f g (x y : nat * P) :
  leaves_symmetric e -> scaling_free e || (f == g) ->
  cov_call (build e) (measurement_if F f x) (measurement_if F g y) =
  if defined_on e x.1 y.1 then Some (meaning e (f && g) x y) else None.
Proof. by move=> es hf; have M := build_models es; exact: (default_call M x y hf). Qed.
Print Assumptions C55_measurements.
Example C55_measurements_meets :
  scaling_free ex_gp /\ cov_call (build ex_gp) (VMeas (obj 0 1)) (VMeas (obj 0 1)) = Some 4%:R /\
  cov_call (build ex_gp) (VMeas (obj 0 1)) (obj 0 1) = Some 1 /\
  scaling_free ex_big = false /\ cov_call (build ex_big) (VMeas (obj 0 2)) (VMeas (obj 0 2)) = Some 7%:R.
Proof. by split=> //; do 3?split => //; apply/eqP; vm_compute. Qed.
(* finding: between a measurement and an object a scaling term only applies the factor of the object *)
Theorem C55_scaling_refuted :
  exists (e : cov_expr rat_fieldType nat) (x : ratval), leaves_symmetric e /\ measurement_free e /\ over_class 0 x /\
    cov_call (build e) x x = Some 4%:R /\ cov_call (build e) (VMeas x) (VMeas x) = Some 4%:R /\
    cov_call (build e) (VMeas x) x = Some 2%:R /\ cov_call (build e) x (VMeas x) = Some 2%:R.
Proof.
exists (ScaledL (fun a => a == 0%N) (fun _ p => p%:R) ex_k), (obj 0 2); split; first exact: ex_k_sym.
split=> //; split; first exact: OverBase.
by do 3?split; apply/eqP; vm_compute.
Qed.
Print Assumptions C55_scaling_refuted.
(* finding: the noise of a measurement of a linear combination is left out *)
Theorem C55_combination_noise_refuted :
  exists (e : cov_expr rat_fieldType nat) (x : ratval), leaves_symmetric e /\ over_class 0 x /\
    cov_call (build e) x x = Some 15%:R /\
    cov_call (build (OnlyMeasured e)) (VMeas x) (VMeas x) = Some 0.
Proof.
exists ex_noise, lc; split; first exact: (proj2 ex_gp_sym).
split; first by case: C54_defined_meets.
by split; apply/eqP; vm_compute.
Qed.
Print Assumptions C55_combination_noise_refuted.
(* finding: for a measurement of a measurement a sum of a kernel and measurement noise keeps only the
   noise *)
Theorem C55_double_measurement_refuted :
  exists (k noise : cov_expr rat_fieldType nat) (x : ratval), leaves_symmetric k /\ leaves_symmetric noise /\ over_class 0 x /\
    cov_call (build (Sum k (OnlyMeasured noise))) (VMeas x) (VMeas x) = Some 4%:R /\
    cov_call (build (Sum k (OnlyMeasured noise))) (VMeas (VMeas x)) (VMeas (VMeas x)) = Some 3%:R.
Proof.
exists ex_k, ex_noise, (obj 0 1); split; first exact: ex_k_sym.
split; first exact: (proj2 ex_gp_sym).
split; first exact: OverBase.
by split; apply/eqP; vm_compute.
Qed.
Print Assumptions C55_double_measurement_refuted.

(* ---- C50 ---- *)
(* What a function built from positive semi-definite ones by +, *, measurement_only and scaling gives
   for any features, as linear combinations of objects, is positive semi-definite. *)
Theorem C50_psd (F : realFieldType) (P : Type) (e : cov_expr F P) n (x : 'I_n -> val F P) (K : 'M[F]_n) :
  leaves_symmetric e -> psd_built e -> (forall i, plain (x i)) -> (forall i j, scaling_respected e (x i) (x j)) ->
  (forall i j, cov_call (build e) (x i) (x j) = Some (K i j)) -> psd K.
Proof.
move=> es pe hx hs hK; have -> : K = \matrix_(i, j) covariance e (x i) (x j).
  by apply/matrixP => i j; rewrite mxE; apply: (cov_call_plain es _ _ (hs i j) (hK i j)).
exact: covariance_psd.
Qed.
Print Assumptions C50_psd.
Theorem C50_psd_variants (F : realFieldType) (P : Type) (e : cov_expr F P) n ts cs (x : 'I_n -> val F P) (K : 'M[F]_n) :
  leaves_symmetric e -> psd_built e -> alternatives ts cs ->
  (forall i, exists a, over_class a (x i)) -> (forall i j, scaling_respected e (x i) (x j)) ->
  (forall i j, cov_call (build e) (VVar ts (x i)) (VVar ts (x j)) = Some (K i j)) -> psd K.
Proof.
move=> es pe ha hx hs hK; have -> : K = \matrix_(i, j) covariance e (x i) (x j).
  apply/matrixP => i j; rewrite mxE; have := hK i j.
  case: (hx i) => a oa; case: (hx j) => b ob.
  by rewrite (cov_call_variants es oa ob ha ha (hs i j)); case: ifP => // _ [].
exact: covariance_psd.
Qed.
Print Assumptions C50_psd_variants.
Example C50_psd_meets : leaves_symmetric ex_big /\ psd_built ex_big /\
  cov_call (build ex_big) lc lc = Some 6%:R.
Proof. by split; [exact: ex_big_sym|split; [exact: ex_big_psd|apply/eqP; vm_compute]]. Qed.
(* finding: a factor that is not defined for a pair of classes counts as 1, so products of positive
   semi-definite functions that are defined for different classes are not positive semi-definite *)
Theorem C50_product_refuted :
  exists (e : cov_expr rat_fieldType nat) (x : 'I_2 -> ratval) (K : 'M[rat]_2),
    leaves_symmetric e /\ leaves_psd e /\ (forall i, exists a, over_class a (x i)) /\
    (forall i j, cov_call (build e) (VVar [:: TBase 0; TBase 1] (x i)) (VVar [:: TBase 0; TBase 1] (x j)) = Some (K i j)) /\
    ~ psd K.
Proof.
pose l : cov_expr rat_fieldType nat := Leaf (only 0) (fun _ _ _ _ => 4%:R^-1).
exists (Product l ex_both), (fun i => obj i 0), (\matrix_(i, j) (if (i == 0) && (j == 0) then 4%:R^-1 else 1)).
split; first by split.
split; first by split; [apply: ex_const_psd|exact: ex_both_psd].
split; first by move=> i; exists i; constructor.
split.
  move=> i j; rewrite mxE; apply/eqP.
  by case: i => [[|[|i]] hi] //; case: j => [[|[|j]] hj] //; vm_compute.
case=> _ /(_ (\col_i (if i == 0 then -1 else 1))).
by rewrite quadE !big_ord_recl !big_ord0 !mxE /=; vm_compute.
Qed.
Print Assumptions C50_product_refuted.
