(** A reflexive decision procedure for equalities in abelian groups, used for the block
    algebra of the linear solvers: [zmod] proves s = t when both are the same integer
    combination of atoms. *)
From mathcomp Require Import all_ssreflect all_algebra.
Set Implicit Arguments.
Unset Strict Implicit.
Unset Printing Implicit Defensive.
Import GRing.Theory.
Local Open Scope ring_scope.

Inductive zexp := ZV of nat | ZA of zexp & zexp | ZO of zexp | Z0.

Section Zmod.
Variable V : zmodType.
Fixpoint zeval (env : seq V) (e : zexp) : V :=
  match e with
  | ZV i => nth 0 env i
  | ZA a b => zeval env a + zeval env b
  | ZO a => - zeval env a
  | Z0 => 0
  end.
Fixpoint zcoef (i : nat) (e : zexp) : int :=
  match e with
  | ZV j => (i == j)%:R
  | ZA a b => zcoef i a + zcoef i b
  | ZO a => - zcoef i a
  | Z0 => 0
  end.
Lemma zevalE env e : zeval env e = \sum_(i < size env) nth 0 env i *~ zcoef i e.
Proof.
elim: e => [j|a IHa b IHb|a IHa|] /=.
- case: (ltnP j (size env)) => hj.
    rewrite (bigD1 (Ordinal hj)) //= eqxx big1 ?addr0 // => i.
    by rewrite -val_eqE /= => /negPf ->.
  rewrite nth_default // big1 // => i _; case: eqP => // E.
  by move: (ltn_ord i); rewrite E ltnNge hj.
- by rewrite IHa IHb -big_split /=; apply: eq_bigr => i _; rewrite mulrzDl.
- by rewrite IHa -sumrN; apply: eq_bigr => i _; rewrite mulrNz.
- by rewrite big1.
Qed.
Definition zequal (n : nat) (a b : zexp) : bool := all (fun i => zcoef i a == zcoef i b) (iota 0 n).
Lemma zequalP env a b : zequal (size env) a b -> zeval env a = zeval env b.
Proof.
move=> /allP H; rewrite !zevalE; apply: eq_bigr => i _.
have h : (i : nat) \in iota 0 (size env) by rewrite mem_iota add0n ltn_ord.
by move/eqP: (H _ h) => ->.
Qed.
End Zmod.

Ltac zmem t l := match l with
  | nil => constr:(false)
  | t :: _ => constr:(true)
  | _ :: ?l' => zmem t l'
  end.
Ltac zadd t l := match zmem t l with true => l | false => constr:(t :: l) end.
Ltac zatoms t l := match t with
  | GRing.add ?a ?b => let l1 := zatoms a l in zatoms b l1
  | GRing.opp ?a => zatoms a l
  | GRing.zero _ => l
  | _ => zadd t l
  end.
Ltac zindex t l := match l with
  | t :: _ => constr:(0%N)
  | _ :: ?l' => let n := zindex t l' in constr:(n.+1)
  end.
Ltac zreify t l := match t with
  | GRing.add ?a ?b => let x := zreify a l in let y := zreify b l in constr:(ZA x y)
  | GRing.opp ?a => let x := zreify a l in constr:(ZO x)
  | GRing.zero _ => constr:(Z0)
  | _ => let n := zindex t l in constr:(ZV n)
  end.
Ltac zmod := match goal with
  | |- @eq ?T ?s ?t =>
    let l0 := constr:(@nil T) in
    let l1 := zatoms s l0 in let l := zatoms t l1 in
    let a := zreify s l in let b := zreify t l in
    exact (@zequalP _ l a b isT)
  end.

(** Distribute products over sums and reassociate them. *)
Section Tr.
Variables (R : comRingType) (m n : nat).
Lemma trD (A B : 'M[R]_(m, n)) : (A + B)^T = A^T + B^T. Proof. exact: linearD. Qed.
Lemma trB (A B : 'M[R]_(m, n)) : (A - B)^T = A^T - B^T. Proof. exact: linearB. Qed.
Lemma trN (A : 'M[R]_(m, n)) : (- A)^T = - A^T. Proof. exact: linearN. Qed.
End Tr.
Ltac mxdist := rewrite ?(mulmxDl, mulmxDr, mulmxBl, mulmxBr, mulNmx, mulmxN, mul1mx, mulmx1, mul0mx, mulmx0, mulmxA, opprK, trmx_mul, trmxK, trD, trB, trN, opprD, opprB).

Lemma zmod_test (F : fieldType) m n (A B : 'M[F]_(m, n)) (C : 'M[F]_(n, m)) (x : 'cV[F]_m) :
  A *m (C *m x) - (B + A) *m C *m x = - B *m C *m x.
Proof. mxdist; zmod. Qed.
