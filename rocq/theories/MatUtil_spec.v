(** Specification vocabulary for C19. *)
From Coq Require Import Reals.
Local Open Scope R_scope.
(** mx is the largest magnitude among the entries of an m by n matrix *)
Definition largest (m n : nat) (A : nat -> nat -> R) (mx : R) : Prop :=
  (forall i j, (i < m)%nat -> (j < n)%nat -> Rabs (A i j) <= mx) /\
  (exists i j, (i < m)%nat /\ (j < n)%nat /\ Rabs (A i j) = mx).
