(** Specification vocabulary for C79. *)
From mathcomp Require Import all_ssreflect all_algebra.
Set Implicit Arguments.
Unset Strict Implicit.
Unset Printing Implicit Defensive.
Local Open Scope ring_scope.

Section Basis.
Variables (F : realFieldType) (m n : nat).
(** The columns s of W (with repetitions or not) span everything: they contain a basis. *)
Definition spanning (W : 'M[F]_(m, n)) k (s : 'I_k -> 'I_n) : Prop := forall v : 'cV[F]_m, exists c : 'cV[F]_k, v = colsub s W *m c.
(** x is away from both its bounds *)
Definition off_bounds (x lo hi : nat -> F) (i : nat) : Prop := x i <> lo i /\ x i <> hi i.
End Basis.
