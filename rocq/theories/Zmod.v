(** * A decision procedure for identities in abelian groups (proof tool only) *)
From mathcomp Require Import all_ssreflect all_algebra.
Set Implicit Arguments.
Unset Strict Implicit.
Unset Printing Implicit Defensive.
Import GRing.Theory.
Local Open Scope ring_scope.

Inductive zexpr : Type := ZV (i : nat) | ZA (a b : zexpr) | ZN (a : zexpr) | Z0.

Section Z.
Variable V : zmodType.
Fixpoint zeval (env : seq V) (e : zexpr) : V :=
  match e with
  | ZV i => nth 0 env i
  | ZA a b => zeval env a + zeval env b
  | ZN a => - zeval env a
  | Z0 => 0
  end.
Fixpoint zcoef (e : zexpr) (i : nat) : int :=
  match e with
  | ZV j => if i == j then 1 else 0
  | ZA a b => zcoef a i + zcoef b i
  | ZN a => - zcoef a i
  | Z0 => 0
  end.
Fixpoint zok (k : nat) (e : zexpr) : bool :=
  match e with ZV i => (i < k)%N | ZA a b => zok k a && zok k b | ZN a => zok k a | Z0 => true end.

Lemma zevalE env e : zok (size env) e ->
  zeval env e = \sum_(i < size env) nth 0 env i *~ zcoef e i.
Proof.
elim: e => [j|a IHa b IHb|a IHa|] /=.
- move=> Hj; rewrite (bigD1 (Ordinal Hj)) //= eqxx mulr1z big1 ?addr0 // => i Hi.
  by rewrite (_ : (i == j :> nat) = false) ?mulr0z //; apply/negbTE.
- case/andP => /IHa -> /IHb ->; rewrite -big_split /=; apply: eq_bigr => i _; by rewrite mulrzDl.
- by move=> /IHa ->; rewrite -sumrN; apply: eq_bigr => i _; rewrite mulrNz.
- by rewrite big1 // => i _; rewrite mulr0z.
Qed.

Definition zcheck (k : nat) (e1 e2 : zexpr) : bool :=
  [&& zok k e1, zok k e2 & all (fun i => zcoef e1 i == zcoef e2 i) (iota 0 k)].

Lemma zcheckP env e1 e2 : zcheck (size env) e1 e2 -> zeval env e1 = zeval env e2.
Proof.
case/and3P => H1 H2 /allP H; rewrite !zevalE //; apply: eq_bigr => i _.
have Hi : (i : nat) \in iota 0 (size env) by rewrite mem_iota add0n ltn_ord.
by have /eqP E := H (nat_of_ord i) Hi; rewrite E.
Qed.
End Z.

Ltac zsame x y := match goal with _ => constr_eq x y | _ => unify x y end.
Ltac zmem x l :=
  match l with
  | nil => constr:(false)
  | cons ?y ?l' => match goal with _ => let _ := match goal with _ => zsame x y end in constr:(true) | _ => zmem x l' end
  end.
Ltac zatoms t l :=
  lazymatch t with
  | @GRing.add _ ?a ?b => let l := zatoms a l in zatoms b l
  | @GRing.opp _ ?a => zatoms a l
  | @GRing.zero _ => l
  | _ => let b := zmem t l in lazymatch b with true => l | false => constr:(cons t l) end
  end.
Ltac zindex x l :=
  match l with
  | cons ?y ?l' =>
      match goal with
      | _ => let _ := match goal with _ => zsame x y end in constr:(O)
      | _ => let i := zindex x l' in constr:(S i)
      end
  end.
Ltac zreify t l :=
  lazymatch t with
  | @GRing.add _ ?a ?b => let a := zreify a l in let b := zreify b l in constr:(ZA a b)
  | @GRing.opp _ ?a => let a := zreify a l in constr:(ZN a)
  | @GRing.zero _ => constr:(Z0)
  | _ => let i := zindex t l in constr:(ZV i)
  end.
(** proves equalities between sums, differences and negations of atoms *)
Ltac zmod :=
  intros;
  lazymatch goal with |- @eq ?T ?x ?y =>
    let l := zatoms x (@nil T) in
    let l := zatoms y l in
    let ex := zreify x l in
    let ey := zreify y l in
    exact (@zcheckP _ l ex ey isT)
  end.

Lemma zmod_test1 : forall (R : ringType) (m n : nat) (a b c : 'M[R]_(m, n)), a - (b - c) + 0 = c + a - b.
Proof. zmod. Qed.
Lemma zmod_test2 : forall (R : comRingType) (a b c : R), a * b - (b - c) + 0 = c + a * b - b.
Proof. zmod. Qed.

(** distribute products over sums, then [zmod] *)
Ltac mxzmod := rewrite ?(mulmxDl, mulmxDr, mulmxBl, mulmxBr, mulNmx, mulmxN, mulmxA, mulmx1, mul1mx, mulmx0, mul0mx, opprK); zmod.
