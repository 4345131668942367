(* A decision procedure for equations in abelian groups (mathcomp zmodType): [zgroup]. *)
From mathcomp Require Import all_ssreflect all_algebra.
Set Implicit Arguments.
Unset Strict Implicit.
Unset Printing Implicit Defensive.
Import GRing.Theory.
Local Open Scope ring_scope.

Inductive gexpr := GAtom (k : nat) | GAdd (a b : gexpr) | GOpp (a : gexpr) | GZero.

Section Eval.
Variable V : zmodType.
Variable env : seq V.
Fixpoint geval (e : gexpr) : V :=
  match e with
  | GAtom k => nth 0 env k
  | GAdd a b => geval a + geval b
  | GOpp a => - geval a
  | GZero => 0
  end.
Fixpoint gcoef (e : gexpr) (k : nat) : int :=
  match e with
  | GAtom j => if eqn j k then 1 else 0
  | GAdd a b => gcoef a k + gcoef b k
  | GOpp a => - gcoef a k
  | GZero => 0
  end.
Fixpoint gok (n : nat) (e : gexpr) : bool :=
  match e with GAtom j => leq j.+1 n | GAdd a b => gok n a && gok n b | GOpp a => gok n a | GZero => true end.
Lemma geval_sum e : gok (size env) e -> geval e = \sum_(k < size env) nth 0 env k *~ gcoef e k.
Proof.
elim: e => [j|a IHa b IHb|a IHa|] /=.
- move=> jn; rewrite (bigD1 (Ordinal jn)) //= eqnE eqxx mulr1z big1 ?addr0 // => k.
  by rewrite -val_eqE eq_sym => /negbTE /= ->; rewrite mulr0z.
- case/andP => /IHa -> /IHb ->; rewrite -big_split /=; apply: eq_bigr => k _; by rewrite mulrzDl.
- move=> /IHa ->; rewrite -sumrN; apply: eq_bigr => k _; by rewrite mulrNz.
- by move=> _; rewrite big1 // => k _; rewrite mulr0z.
Qed.
Definition gcheck (n : nat) (a b : gexpr) : bool :=
  [&& gok n a, gok n b & all (fun k => gcoef a k == gcoef b k) (iota 0 n)].
Lemma geval_eq a b : gcheck (size env) a b -> geval a = geval b.
Proof.
case/and3P => Ha Hb /allP H; rewrite !geval_sum //; apply: eq_bigr => k _.
by congr (_ *~ _); apply/eqP/H; rewrite mem_iota /= add0n.
Qed.
End Eval.

Ltac zg_find x l :=
  match l with
  | ?y :: _ => let _ := match goal with _ => unify x y end in constr:(0%N)
  | _ :: ?l' => let n := zg_find x l' in constr:(n.+1)
  end.
Ltac zg_mem x l :=
  match l with
  | ?y :: _ => let _ := match goal with _ => unify x y end in constr:(true)
  | _ :: ?l' => zg_mem x l'
  | _ => constr:(false)
  end.
Ltac zg_atoms V e l :=
  lazymatch e with
  | @GRing.add _ ?a ?b => let l := zg_atoms V a l in zg_atoms V b l
  | @GRing.opp _ ?a => zg_atoms V a l
  | @GRing.zero _ => l
  | _ => let m := zg_mem e l in
         lazymatch m with true => l | false => constr:(@cons (GRing.Zmodule.sort V) e l) end
  end.
Ltac zg_reify e l :=
  lazymatch e with
  | @GRing.add _ ?a ?b => let a := zg_reify a l in let b := zg_reify b l in constr:(GAdd a b)
  | @GRing.opp _ ?a => let a := zg_reify a l in constr:(GOpp a)
  | @GRing.zero _ => constr:(GZero)
  | _ => let n := zg_find e l in constr:(GAtom n)
  end.
Ltac zg_type a b :=
  match a with
  | @GRing.add ?V _ _ => V
  | @GRing.opp ?V _ => V
  | _ => match b with @GRing.add ?V _ _ => V | @GRing.opp ?V _ => V end
  end.
Ltac zgroup :=
  lazymatch goal with
  | |- @eq _ ?a ?b =>
      let V := zg_type a b in
      let l := zg_atoms V a (@nil (GRing.Zmodule.sort V)) in
      let l := zg_atoms V b l in
      let ea := zg_reify a l in
      let eb := zg_reify b l in
      exact (@geval_eq V l ea eb (eq_refl true))
  end.
