From Verif Require Base.
From mathcomp Require Import all_ssreflect all_algebra.
From Verif Require Import LeastSquaresModel LeastSquaresSpec.
Set Implicit Arguments.
Unset Strict Implicit.
Unset Printing Implicit Defensive.
Import Order.TTheory GRing.Theory Num.Theory.
Local Open Scope ring_scope.

Section Field.
Variable F : fieldType.
Definition vec n (c : seq F) : 'cV[F]_n := \col_i nth 0 c i.
Definition entries n (v : 'cV[F]_n) : seq F := [seq v i 0 | i <- enum 'I_n].
Lemma size_entries n (v : 'cV[F]_n) : size (entries v) = n.
Proof. by rewrite size_map size_enum_ord. Qed.
Lemma nth_entries n (v : 'cV[F]_n) (i : 'I_n) : nth 0 (entries v) i = v i 0.
Proof. by rewrite (nth_map i) ?size_enum_ord // nth_ord_enum. Qed.
Lemma vec_entries n (v : 'cV[F]_n) : vec n (entries v) = v.
Proof. by apply/matrixP => i j; rewrite mxE nth_entries ord1. Qed.
Lemma entries_vec n (c : seq F) : size c = n -> entries (vec n c) = c.
Proof.
move=> e; apply: (@eq_from_nth _ 0) => [|i]; first by rewrite size_entries e.
rewrite size_entries => hi; by rewrite -[i]/(val (Ordinal hi)) nth_entries mxE.
Qed.
Lemma inner_sum (a b : seq F) : inner a b = \sum_(p <- zip a b) p.1 * p.2.
Proof. by elim: a b => [|x a IH] [|y b] /=; rewrite ?big_nil // big_cons IH. Qed.
Lemma inner_ord n (a b : seq F) : size a = n -> size b = n -> inner a b = \sum_(i < n) nth 0 a i * nth 0 b i.
Proof.
elim: n a b => [|n IH] [|x a] [|y b] //=; first by rewrite big_ord0.
by move=> [ea] [eb]; rewrite big_ord_recl /= (IH a b).
Qed.
Lemma vdot_ok (a b : seq F) : size a = size b -> vdot a b = Base.Ok (inner a b).
Proof. by move=> e; rewrite /vdot e eqxx /= inner_sum. Qed.
Lemma vdot_abort (a b : seq F) : size a <> size b -> vdot a b = Base.Abort.
Proof. by rewrite /vdot => /eqP /negbTE ->. Qed.

Lemma design_mul m n (features : seq (seq F)) (c : seq F) (i : 'I_m) :
  size features = m -> all (fun f => size f == n) features -> size c = n ->
  (design m n features *m vec n c) i 0 = inner (nth [::] features i) c.
Proof.
move=> em /allP hs ec; rewrite mxE (@inner_ord n) //.
  by apply: eq_bigr => j _; rewrite !mxE.
by apply/eqP/hs/mem_nth; rewrite em.
Qed.
Lemma predict_ok (features : seq (seq F)) (c : seq F) :
  all (fun f => size f == size c) features -> predict features c = Base.Ok [seq inner f c | f <- features].
Proof.
rewrite /predict; elim: features => //= f l IH /andP [/eqP e h].
by rewrite vdot_ok //= IH.
Qed.
Lemma predict_abort (features : seq (seq F)) (c : seq F) :
  ~~ all (fun f => size f == size c) features -> predict features c = Base.Abort.
Proof.
rewrite /predict; elim: features => //= f l IH; rewrite negb_and.
case: (boolP (size f == size c)) => /= [/eqP e h|/eqP e _].
  by rewrite vdot_ok //= IH.
by rewrite vdot_abort.
Qed.

Variable V : Type.
Variable differ : V -> V -> bool.
Variable solver : forall m n, 'M[F]_(m, n) -> 'cV[F]_m -> 'cV[F]_n.
Hypothesis contract : least_squares_contract solver.
Lemma fit_ok n (features : seq (seq F)) y vs :
  all_same_value differ vs -> (0 < size features)%N -> all (fun f => size f == n) features ->
  size y = size features ->
  fit differ solver features y vs =
  Base.Ok (entries (solver (design (size features) n features) (vec (size features) y))).
Proof.
rewrite /fit => -> /=; case: features => [//|f l] _ /= /andP [/eqP <- h] e.
by rewrite eqxx h e eqxx.
Qed.
Lemma fit_no_data y vs : all_same_value differ vs -> fit differ solver [::] y vs = Base.UB.
Proof. by rewrite /fit => ->. Qed.
Lemma fit_variances features y vs : ~~ all_same_value differ vs -> fit differ solver features y vs = Base.Abort.
Proof. by rewrite /fit => /negbTE ->. Qed.
End Field.

Section Real.
Variable F : realFieldType.
(* the squares of a real vector *)
Lemma norm_col m (v : 'cV[F]_m) : (v^T *m v) 0 0 = \sum_i (v i 0) ^+ 2.
Proof. by rewrite mxE; apply: eq_bigr => i _; rewrite mxE expr2. Qed.
Lemma norm_ge0 m (v : 'cV[F]_m) : 0 <= (v^T *m v) 0 0.
Proof. by rewrite norm_col; apply: sumr_ge0 => i _; rewrite sqr_ge0. Qed.
Lemma norm_eq0 m (v : 'cV[F]_m) : (v^T *m v) 0 0 = 0 -> v = 0.
Proof.
rewrite norm_col => /eqP; rewrite psumr_eq0; last by move=> i _; exact: sqr_ge0.
move=> /allP h; apply/matrixP => i j; rewrite ord1 mxE; apply/eqP.
by have := h i (mem_index_enum i); rewrite sqrf_eq0.
Qed.
Lemma gram_null m n p (A : 'M[F]_(m, n)) (K : 'M[F]_(n, p)) : A^T *m A *m K = 0 -> A *m K = 0.
Proof.
move=> h; apply/matrixP => i j.
have: col j (A *m K) = 0.
  apply: norm_eq0; rewrite colE -mulmxA -colE trmx_mul -mulmxA [A^T *m _]mulmxA colE [_ *m (K *m _)]mulmxA.
  by rewrite h mul0mx mulmx0 mxE.
by move=> /matrixP /(_ i 0); rewrite !mxE.
Qed.

(* a solver that meets the contract *)
Definition pseudo m n (A : 'M[F]_(m, n)) (b : 'cV[F]_m) : 'cV[F]_n := (b^T *m A *m pinvmx (A^T *m A))^T.
Lemma pseudo_contract : least_squares_contract pseudo.
Proof.
move=> m n A b; apply: trmx_inj; rewrite !trmx_mul !trmxK.
apply: mulmxKpV; apply: submx_trans (submxMl _ _) _.
by rewrite submxE; apply/eqP/gram_null; exact: mulmx_coker.
Qed.

Variable V : Type.
Variable differ : V -> V -> bool.
Variable solver : forall m n, 'M[F]_(m, n) -> 'cV[F]_m -> 'cV[F]_n.
Hypothesis contract : least_squares_contract solver.

Lemma resid n features (y c : seq F) (i : 'I_(size features)) :
  all (fun f => size f == n) features -> size c = n ->
  (vec (size features) y - design (size features) n features *m vec n c) i 0 =
  nth 0 y i - inner (nth [::] features i) c.
Proof. by move=> hs ec; rewrite [LHS]mxE [X in _ + X = _]mxE design_mul // mxE. Qed.
Lemma squares_norm n features (y c : seq F) :
  all (fun f => size f == n) features -> size y = size features -> size c = n ->
  squares features y c =
  ((vec (size features) y - design (size features) n features *m vec n c)^T *m
   (vec (size features) y - design (size features) n features *m vec n c)) 0 0.
Proof.
move=> hs ey ec; rewrite norm_col /squares.
rewrite (big_nth ([::], 0)) size_zip ey minnn big_mkord; apply: eq_bigr => i _.
by rewrite nth_zip //= resid.
Qed.

Lemma pythagoras m n (A : 'M[F]_(m, n)) (b : 'cV[F]_m) (x z : 'cV[F]_n) : A^T *m A *m x = A^T *m b ->
  ((b - A *m z)^T *m (b - A *m z)) 0 0 =
  ((b - A *m x)^T *m (b - A *m x)) 0 0 + ((A *m (x - z))^T *m (A *m (x - z))) 0 0.
Proof.
move=> h; have e: b - A *m z = (b - A *m x) + A *m (x - z).
  by rewrite mulmxBr addrA subrK.
have o : (A *m (x - z))^T *m (b - A *m x) = 0.
  by rewrite trmx_mul -mulmxA mulmxBr mulmxA h subrr mulmx0.
have o' : (b - A *m x)^T *m (A *m (x - z)) = 0.
  by apply: trmx_inj; rewrite trmx_mul trmxK o linear0.
move: (b - A *m x) (A *m (x - z)) e o o' => r s -> o o'.
by rewrite [(r + s)^T]linearD /= mulmxDl !mulmxDr o o' addr0 add0r [LHS]mxE.
Qed.

Section Data.
Variables (n : nat) (features : seq (seq F)) (y : seq F) (vs : seq V).
Hypothesis same : all_same_value differ vs.
Hypothesis some : (0 < size features)%N.
Hypothesis sizes : all (fun f => size f == n) features.
Hypothesis sizey : size y = size features.
Notation m := (size features).
Let A := design m n features.
Let c := entries (solver A (vec m y)).

Lemma size_c : size c = n. Proof. exact: size_entries. Qed.
Lemma normal : A^T *m A *m vec n c = A^T *m vec m y.
Proof. by rewrite vec_entries contract. Qed.

Lemma minimises z : size z = n -> squares features y c <= squares features y z.
Proof.
move=> ez; rewrite !(@squares_norm n) ?size_c //.
by rewrite (pythagoras (vec n z) normal) ler_addl norm_ge0.
Qed.
(* equality only for the same predictions *)
Lemma minimises_eq z : size z = n -> squares features y z <= squares features y c ->
  [seq inner f z | f <- features] = [seq inner f c | f <- features].
Proof.
move=> ez; rewrite !(@squares_norm n) ?size_c //.
rewrite (pythagoras (vec n z) normal) ger_addl => h.
have /norm_eq0 e : ((A *m (vec n c - vec n z))^T *m (A *m (vec n c - vec n z))) 0 0 = 0.
  by apply/eqP; rewrite eq_le h norm_ge0.
apply: (@eq_from_nth _ 0); rewrite !size_map // => i hi.
rewrite !(nth_map [::]) //.
have := congr1 (fun M : 'cV[F]_m => M (Ordinal hi) 0) e.
rewrite mulmxBr mxE [X in _ + X = _]mxE !design_mul ?size_c // mxE.
by move/eqP; rewrite subr_eq0 => /eqP ->.
Qed.
Lemma orthogonal z : size z = n ->
  \sum_(p <- zip features y) (p.2 - inner p.1 c) * inner p.1 z = 0.
Proof.
move=> ez.
have: ((A *m vec n z)^T *m (vec m y - A *m vec n c)) 0 0 = 0.
  by rewrite trmx_mul -mulmxA mulmxBr mulmxA normal subrr mulmx0 mxE.
rewrite mxE => h; rewrite -[RHS]h (big_nth ([::], 0)) size_zip sizey minnn big_mkord.
apply: eq_bigr => i _; rewrite nth_zip //= [X in _ = X * _]mxE design_mul //.
by rewrite resid ?size_c // mulrC.
Qed.
End Data.

Lemma squares_eq0 features (y z : seq F) : size y = size features ->
  [seq inner f z | f <- features] = y -> squares features y z = 0.
Proof.
move=> _ <-; rewrite /squares; elim: features => [|f l IH] /=; first by rewrite big_nil.
by rewrite big_cons /= subrr expr0n add0r IH.
Qed.
Lemma squares_ge0 features (y z : seq F) : 0 <= squares features y z.
Proof. by apply: sumr_ge0 => p _; rewrite sqr_ge0. Qed.

Lemma inner_sub n (f a b : seq F) : size a = n -> size b = n ->
  inner f [seq p.1 - p.2 | p <- zip a b] = inner f a - inner f b.
Proof.
elim: f n a b => [|x f IH] n [|p a] [|q b] //= ea eb; rewrite ?subrr //.
  by move: ea eb => <-.
  by move: ea eb => <-.
by rewrite (IH (size a)) //; [rewrite mulrBr opprD addrACA | move: ea eb => <- []].
Qed.
Lemma identify n features (a b : seq F) : identifiable n features -> size a = n -> size b = n ->
  [seq inner f a | f <- features] = [seq inner f b | f <- features] -> a = b.
Proof.
move=> h ea eb e.
have {}h := h [seq p.1 - p.2 | p <- zip a b].
rewrite size_map size_zip ea eb minnn in h.
have {}e : [seq p.1 - p.2 | p <- zip a b] = nseq n 0.
  apply: h => // f hf.
  rewrite (inner_sub _ ea eb); apply/eqP; rewrite subr_eq0; apply/eqP.
  have := congr1 (fun s => nth 0 s (index f features)) e.
  by rewrite !(nth_map [::]) ?index_mem // nth_index.
apply: (@eq_from_nth _ 0) => [|i hi]; first by rewrite ea eb.
have := congr1 (fun s => nth 0 s i) e.
rewrite (nth_map (0, 0)) ?size_zip ?ea ?eb ?minnn -?ea // nth_zip ?ea ?eb //= nth_nseq -ea hi.
by move/eqP; rewrite subr_eq0 => /eqP.
Qed.
End Real.

(* ---- linear regression ---- *)
Section Regression.
Variable F : realFieldType.
Variable V : Type.
Variable differ : V -> V -> bool.
Variable solver : forall m n, 'M[F]_(m, n) -> 'cV[F]_m -> 'cV[F]_n.
Hypothesis contract : least_squares_contract solver.
Lemma converted (xs : seq F) : all (fun f => size f == 2%N) (convert_features xs).
Proof. by elim: xs => //= x l ->. Qed.
Lemma size_converted (xs : seq F) : size (convert_features xs) = size xs.
Proof. by rewrite size_map. Qed.
Lemma inner_convert (x a b : F) : inner (convert_feature x) [:: a; b] = a + b * x.
Proof. by rewrite /= mul1r addr0 mulrC. Qed.
Lemma regression_predict_ok (xs : seq F) a b :
  regression_predict xs [:: a; b] = Base.Ok [seq a + b * x | x <- xs].
Proof.
rewrite /regression_predict predict_ok ?converted // -map_comp.
by congr (Base.Ok _); apply: eq_map => x /=; rewrite mul1r addr0 mulrC.
Qed.
Lemma zip_convert (G : seq F -> F -> F) (xs y : seq F) :
  \sum_(p <- zip (convert_features xs) y) G p.1 p.2 = \sum_(p <- zip xs y) G (convert_feature p.1) p.2.
Proof. by elim: xs y => [|x xs IH] [|b y] /=; rewrite ?big_nil // !big_cons /= IH. Qed.

Lemma regression_normal (xs y : seq F) vs :
  all_same_value differ vs -> (0 < size xs)%N -> size y = size xs ->
  exists a b, regression_fit differ solver xs y vs = Base.Ok [:: a; b] /\
    \sum_(p <- zip xs y) (p.2 - (a + b * p.1)) = 0 /\
    \sum_(p <- zip xs y) (p.2 - (a + b * p.1)) * p.1 = 0.
Proof.
move=> same some sy; rewrite -size_converted in some sy.
rewrite /regression_fit (fit_ok _ same some (converted xs) sy).
set c := entries _; have := size_c solver 2 (convert_features xs) y; rewrite -/c.
have o := orthogonal contract (converted xs) sy; rewrite -/c in o.
case: c o => [|a [|b [|]]] // o _; exists a, b; split=> //.
have := o [:: 1; 0] erefl; have := o [:: 0; 1] erefl.
rewrite (zip_convert (fun f y => (y - inner f [:: a; b]) * inner f [:: 0; 1])) => h1.
rewrite (zip_convert (fun f y => (y - inner f [:: a; b]) * inner f [:: 1; 0])) => h0.
split; [rewrite -[RHS]h0|rewrite -[RHS]h1]; apply: eq_bigr => p _; rewrite inner_convert /=.
  by rewrite mulr0 !addr0 mulr1 mulr1.
by rewrite mulr0 mulr1 add0r addr0.
Qed.

Lemma sum_zip1 (xs y : seq F) : size y = size xs -> \sum_(p <- zip xs y) p.1 = \sum_(x <- xs) x.
Proof. by elim: xs y => [|x xs IH] [|b y] //=; rewrite ?big_nil // => -[e]; rewrite !big_cons /= IH. Qed.
Lemma sum_zip2 (xs y : seq F) : size y = size xs -> \sum_(p <- zip xs y) p.2 = \sum_(b <- y) b.
Proof. by elim: xs y => [|x xs IH] [|b y] //=; rewrite ?big_nil // => -[e]; rewrite !big_cons /= IH. Qed.
Lemma line_formula (xs y : seq F) a b : (0 < size xs)%N -> size y = size xs ->
  \sum_(p <- zip xs y) (p.2 - (a + b * p.1)) = 0 ->
  \sum_(p <- zip xs y) (p.2 - (a + b * p.1)) * p.1 = 0 ->
  average y = a + b * average xs /\
  b * (\sum_(p <- zip xs y) (p.1 - average xs) ^+ 2) =
    \sum_(p <- zip xs y) (p.1 - average xs) * (p.2 - average y).
Proof.
move=> some sy h0 h1.
have n0 : (size xs)%:R != 0 :> F by rewrite pnatr_eq0 -lt0n.
have e : average y = a + b * average xs.
  move: h0; rewrite sumrB big_split /= -mulr_sumr (sum_zip1 sy) (sum_zip2 sy).
  rewrite big_const_seq /= count_predT size_zip sy minnn iter_addr_0 => /eqP; rewrite subr_eq0 => /eqP h.
  by rewrite /average h sy mulrDl -[a *+ _]mulr_natr mulfK // mulrA.
split=> //; apply/eqP; rewrite -subr_eq0 -oppr_eq0 opprB mulr_sumr -sumrB.
have: (\sum_(p <- zip xs y) (p.2 - (a + b * p.1)) * p.1) -
      average xs * (\sum_(p <- zip xs y) (p.2 - (a + b * p.1))) = 0 by rewrite h0 h1 mulr0 subrr.
rewrite mulr_sumr -sumrB => h; rewrite -[X in _ == X]h; apply/eqP; apply: eq_bigr => p _.
rewrite e; move: (average xs) => X.
rewrite [X * _]mulrC -[RHS]mulrBr [RHS]mulrC expr2 [b * (_ * _)]mulrCA -[LHS]mulrBr.
congr (_ * _); rewrite mulrBr !opprD opprK -!addrA; congr (_ + (_ + _)).
by rewrite addrCA addNr addr0.
Qed.
Lemma regression_minimises (xs y : seq F) vs a b :
  all_same_value differ vs -> (0 < size xs)%N -> size y = size xs ->
  regression_fit differ solver xs y vs = Base.Ok [:: a; b] -> forall a' b',
  \sum_(p <- zip xs y) (p.2 - (a + b * p.1)) ^+ 2 <= \sum_(p <- zip xs y) (p.2 - (a' + b' * p.1)) ^+ 2.
Proof.
move=> same some sy; rewrite -size_converted in some sy.
rewrite /regression_fit (fit_ok _ same some (converted xs) sy).
move=> e; have h := minimises contract (converted xs) sy.
move=> a' b'; have := h [:: a'; b'] erefl; case: e => ->; rewrite /squares.
rewrite !(zip_convert (fun f y => (y - inner f _) ^+ 2)).
by congr (_ <= _); apply: eq_bigr => p _; rewrite inner_convert.
Qed.
Lemma regression_identifiable (xs : seq F) x x' : x \in xs -> x' \in xs -> x != x' ->
  identifiable 2 (convert_features xs).
Proof.
move=> h h' ne [|a [|b [|]]] // _ hc.
have e : a + b * x = 0 by rewrite -inner_convert; apply: hc; exact: map_f.
have e' : a + b * x' = 0 by rewrite -inner_convert; apply: hc; exact: map_f.
have: b * (x - x') = 0 by rewrite mulrBr -[RHS]subr0 -{1}e -e' opprD addrACA subrr add0r.
move/eqP; rewrite mulf_eq0 subr_eq0 (negbTE ne) orbF => /eqP b0.
by move: e; rewrite b0 mul0r addr0 => ->.
Qed.
End Regression.
