(** Property theorems C21, C22. *)
From mathcomp Require Import all_ssreflect all_algebra.
From Verif Require Import Dense_model Dense_spec Dense_proofs.
Set Implicit Arguments.
Unset Strict Implicit.
Unset Printing Implicit Defensive.
Local Open Scope ring_scope.
Import Order.TTheory GRing.Theory Num.Theory.

(** ** C21: over any field.  The divisors met on the way are nonzero exactly when the
    matrices A + diag(D_1..D_k,0..0) are invertible, which is the hypothesis. *)
Theorem C21_inverseShermanMorrison : forall (F : fieldType) (n : nat) (A : 'M[F]_n) (D : 'cV[F]_n),
  A \in unitmx -> (forall k, (k <= n)%N -> A + partial_diag D k \in unitmx) ->
  inverseShermanMorrison (invmx A) D = invmx (A + diag_mx D^T).
Proof. exact inverseShermanMorrison_correct. Qed.
Print Assumptions C21_inverseShermanMorrison.

(** in particular always for a positive definite A and nonnegative D *)
Theorem C21_inverseShermanMorrison_posdef : forall (F : realFieldType) (n : nat) (A : 'M[F]_n) (D : 'cV[F]_n),
  posdef A -> (forall i, 0 <= D i 0) ->
  inverseShermanMorrison (invmx A) D = invmx (A + diag_mx D^T).
Proof. exact inverseShermanMorrison_posdef. Qed.
Print Assumptions C21_inverseShermanMorrison_posdef.

Example C21_case : posdef (1%:M : 'M[rat]_3) /\ forall i, 0 <= (const_mx 2%:Q : 'cV[rat]_3) i 0.
Proof.
split=> [y y0|i]; last by rewrite mxE.
rewrite /quad mulmx1 mxE; have [i yi] : exists i, y i 0 != 0.
  apply/existsP; apply: contraR y0; rewrite negb_exists => /forallP y0; apply/eqP/matrixP => i j.
  by rewrite ord1 mxE; apply/eqP; have := y0 i; rewrite negbK.
rewrite (bigD1 i) //= mxE -expr2; apply: ltr_paddr; last by rewrite exprn_even_gt0.
by apply: sumr_ge0 => j _; rewrite mxE -expr2 sqr_ge0.
Qed.

(** ** C22: for every sequence of calls of the closure returned by bfgs *)
Theorem C22_bfgs_secant : forall (F : realFieldType) (n : nat) (calls : seq ('cV[F]_n * 'cV[F]_n)) c c' x g H,
  bfgs_run (rcons (rcons calls c) c') = Some (x, g, H) ->
  ((c'.1 - c.1)^T *m (c'.2 - c.2)) 0 0 != 0 -> H *m (c'.2 - c.2) = c'.1 - c.1.
Proof. exact bfgs_run_secant. Qed.
Print Assumptions C22_bfgs_secant.

Theorem C22_bfgs_symmetric : forall (F : realFieldType) (n : nat) (calls : seq ('cV[F]_n * 'cV[F]_n)) x g H,
  bfgs_run calls = Some (x, g, H) -> H^T = H.
Proof. exact bfgs_run_sym. Qed.
Print Assumptions C22_bfgs_symmetric.

(** One update preserves positive definiteness ... *)
Theorem C22_bfgs_update_posdef : forall (F : realFieldType) (n : nat) (H : 'M[F]_n) (dx dg : 'cV[F]_n),
  posdef H -> 0 < (dx^T *m dg) 0 0 -> posdef (bfgs_update H dx dg).
Proof. exact bfgs_posdef. Qed.
Print Assumptions C22_bfgs_update_posdef.

(** ... so every matrix returned is positive definite when the first x is positive
    (the first matrix is diag(x)) and every pair of calls has positive curvature. *)
Theorem C22_bfgs_posdef : forall (F : realFieldType) (n : nat) (calls : seq ('cV[F]_n * 'cV[F]_n)) x g H,
  (forall i, 0 < (head (0, 0) calls : 'cV[F]_n * 'cV[F]_n).1 i 0) -> curvature calls ->
  bfgs_run calls = Some (x, g, H) -> posdef H.
Proof. exact bfgs_run_posdef. Qed.
Print Assumptions C22_bfgs_posdef.

Example C22_case :
  let calls := [:: (const_mx 1, const_mx 3%:Q); (const_mx 2%:Q, const_mx 4%:Q)] : seq ('cV[rat]_2 * 'cV[rat]_2) in
  (forall i, 0 < (head (0, 0) calls).1 i 0) /\ curvature calls.
Proof.
split=> [i|k]; first by rewrite mxE.
rewrite /= !ltnS leqn0 => /eqP -> /=; rewrite mxE big_ord_recl big_ord_recl big_ord0 !mxE.
by [].
Qed.
