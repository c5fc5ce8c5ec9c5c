(** Specification vocabulary for C21 and C22. *)
From mathcomp Require Import all_ssreflect all_algebra.
Set Implicit Arguments.
Unset Strict Implicit.
Unset Printing Implicit Defensive.
Local Open Scope ring_scope.
Import GRing.Theory.

(** [partial_diag D k]: D on the first k diagonal positions, zero after them *)
Definition partial_diag (F : fieldType) (n : nat) (D : 'cV[F]_n) (k : nat) : 'M[F]_n :=
  diag_mx (\row_j (if (j < k)%N then D j 0 else 0)).

(** y'Ay, and positive definiteness *)
Definition quad (F : realFieldType) (n : nat) (A : 'M[F]_n) (y : 'cV[F]_n) : F := (y^T *m A *m y) 0 0.
Definition posdef (F : realFieldType) (n : nat) (A : 'M[F]_n) : Prop :=
  forall y, y != 0 -> 0 < quad A y.

(** consecutive calls (x_k, g_k), (x_k+1, g_k+1) have (x_k+1 - x_k)'(g_k+1 - g_k) > 0 *)
Definition curvature (F : realFieldType) (n : nat) (calls : seq ('cV[F]_n * 'cV[F]_n)) : Prop :=
  forall k, (k.+1 < size calls)%N ->
    let c := nth (0, 0) calls k in let c' := nth (0, 0) calls k.+1 in
    0 < ((c'.1 - c.1)^T *m (c'.2 - c.2)) 0 0.
