(** Vocabulary for the error of a computed sum. *)
From Coq Require Import Reals List.
From Flocq Require Import Core.
Import ListNotations.
Local Open Scope R_scope.

(** the sum of the entries of l and of their magnitudes *)
Definition Lsum (l : list R) : R := fold_right Rplus 0 l.
Definition Labs (l : list R) : R := Lsum (map Rabs l).

(** relative and absolute error of a sum of n terms: (1 + 2^-53)^n - 1, about n * 2^-53, and
    n * 2^-1075 * (1 + 2^-53)^n for underflows *)
Definition gam (n : nat) : R := (1 + bpow radix2 (-53)) ^ n - 1.
Definition tiny (n : nat) : R := INR n * bpow radix2 (-1075) * (1 + bpow radix2 (-53)) ^ n.
