(** Specification vocabulary for C33-C35. *)
From mathcomp Require Import all_ssreflect all_fingroup all_algebra.
From Verif Require Import LU_model.
Set Implicit Arguments.
Unset Strict Implicit.
Unset Printing Implicit Defensive.
Local Open Scope ring_scope.
Import Order.TTheory GRing.Theory Num.Theory.

Section LUSpec.
Variables (F : realFieldType) (n : nat).

(** matrix P*A*Q for permutations P (of rows) and Q (of columns) *)
Definition permuted (P Q : 'S_n) (A : 'M[F]_n) : 'M[F]_n := \matrix_(i, j) A (P i) (Q j).

(** What full pivoting guarantees: P*A*Q = L*U and a zero pivot ends the elimination,
    everything below and right of it being zero. *)
Definition full_piv (A : 'M[F]_n) (f : lufac F n) : Prop :=
  permuted (fP f) (fQ f) A = unit_lower (fM f) *m upper (fM f) /\
  forall k : 'I_n, fM f k k = 0 -> forall i j : 'I_n, (k <= i)%N -> (k <= j)%N -> fM f i j = 0.

(** No nonzero pivot is at most eps times the right-hand side of its own equation. *)
Definition resolved (eps : F) (f : lufac F n) (b : 'cV[F]_n) : Prop :=
  forall k, fM f k k != 0 -> eps * `|forward f b k 0| < `|fM f k k|.
End LUSpec.
