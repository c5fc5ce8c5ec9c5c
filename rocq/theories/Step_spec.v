(** Specification vocabulary for step lengths (exact arithmetic). *)
From Coq Require Import Reals.
From Verif Require Import Num Index_spec.
Local Open Scope R_scope.

(** y lies between an extended-real lower and upper bound *)
Definition within (lo hi : xreal) (y : R) : Prop :=
  xleb lo (XF y) = true /\ xleb (XF y) hi = true.

(** p is feasible *)
Definition feasible (n : nat) (p : nat -> R) (lo hi : nat -> xreal) : Prop :=
  forall i, (i < n)%nat -> within (lo i) (hi i) (p i).

(** variable i sits on the bound that dp pushes it out of *)
Definition blocked (p dp : nat -> R) (lo hi : nat -> xreal) (i : nat) : Prop :=
  (XF (p i) = lo i /\ dp i < 0) \/ (XF (p i) = hi i /\ 0 < dp i).

(** a is the largest element of the set S *)
Definition is_maximum (S : R -> Prop) (a : R) : Prop := S a /\ forall b, S b -> b <= a.
