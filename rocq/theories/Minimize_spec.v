(** Specification vocabulary for one-dimensional minimisation. *)
From Coq Require Import Reals List.
Local Open Scope R_scope.

(** f strictly decreases on [lo,m] and strictly increases on [m,hi] *)
Definition unimodal (f : R -> R) (lo hi m : R) : Prop :=
  lo <= m <= hi /\
  (forall x y, lo <= x -> x < y -> y <= m -> f y < f x) /\
  (forall x y, m <= x -> x < y -> y <= hi -> f x < f y).
