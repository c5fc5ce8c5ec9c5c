(** The exact residuals of the problem at the computed point, and the terms that bound the
    effect of rounding on them. *)
From Coq Require Import Reals List Permutation.
From Coq Require Import Floats.SpecFloat.
From Verif Require Import Num Round_spec FSum_spec FResidual_model.
Import ListNotations.
Local Open Scope R_scope.

Definition sumn (n : nat) (f : nat -> R) : R := Lsum (map f (seq 0 n)).

(** the numbers the error is computed from are numbers, js and ju partition the variables, the
    basic variables are among js *)
Definition numbers (d : fdata) : Prop :=
  (forall i, isfin (fg d i)) /\ (forall k, isfin (fv d k)) /\ (forall l, isfin (fb d l)) /\ (forall l, isfin (fh d l)) /\
  (forall l j, isfin (fWx d l j)) /\ (forall l k, isfin (fWp d l k)) /\
  (forall j, isfin (fx d j)) /\ (forall k, isfin (fp d k)) /\ (forall l, isfin (fw d l)) /\
  (forall i j, isfin (fR d i j)) /\ (forall i j, isfin (fS d i j)) /\ (forall i k, isfin (fSp d i k)) /\
  (forall i, valid (fxl d i)) /\ (forall i, valid (fxu d i)).
Definition partitioned (d : fdata) : Prop :=
  Permutation (fjs d ++ fju d) (seq 0 (fnx d)) /\ (fnbs d <= length (fjs d))%nat /\ (fnbs d <= fnw d)%nat.

(** No computed residual is NaN (C44_refuted: a NaN residual of p or w does not show in the
    error), and the reference values |R| |awstar| do not overflow (an infinite reference value
    sets the residual to zero, C95_overflow_refuted). *)
Definition not_nan (x : spec_float) : Prop := x <> S754_nan.
Definition no_nan (d : fdata) (r : fresidual) : Prop :=
  (forall i, (i < fnx d)%nat -> not_nan (ra_x r i)) /\ (forall i, (i < fnbs d)%nat -> not_nan (ra_wbs r i)).
Definition no_overflow (d : fdata) (r : fresidual) : Prop :=
  forall i, (i < fnbs d)%nat -> isfin (ra_ref r i).

(** entry i of g + Wx^T w, and the sum of the magnitudes of its terms *)
Definition gradL (d : fdata) (i : nat) : R := V (fg d i) + sumn (fnw d) (fun l => V (fWx d l i) * V (fw d l)).
Definition gradL_mag (d : fdata) (i : nat) : R := Rabs (V (fg d i)) + sumn (fnw d) (fun l => Rabs (V (fWx d l i) * V (fw d l))).

(** the constraint residuals: b - Ax x - Ap p for the linear constraints, -h for the others *)
Definition cres (d : fdata) (l : nat) : R :=
  if Nat.ltb l (fny d)
  then V (fb d l) - sumn (fnx d) (fun j => V (fWx d l j) * V (fx d j)) - sumn (fnp d) (fun k => V (fWp d l k) * V (fp d k))
  else - V (fh d (l - fny d)%nat).
(** row i of R times the constraint residuals *)
Definition Rcres (d : fdata) (i : nat) : R := sumn (fnw d) (fun l => V (fR d i l) * cres d l).

(** the defect of the canonical form: how far R W restricted to js is from [I S], and R Wp from Sp *)
Definition RW (d : fdata) (i j : nat) : R := sumn (fnw d) (fun l => V (fR d i l) * V (fWx d l j)).
Definition RWp (d : fdata) (i k : nat) : R := sumn (fnw d) (fun l => V (fR d i l) * V (fWp d l k)).
Definition defect (d : fdata) (i : nat) : R :=
  sumn (fnbs d) (fun j => Rabs (RW d i (nth j (fjbs d) 0%nat) - (if Nat.eqb i j then 1 else 0)) * Rabs (V (fx d (nth j (fjbs d) 0%nat)))) +
  sumn (fnns d) (fun j => Rabs (RW d i (nth j (fjns d) 0%nat) - V (fS d i j)) * Rabs (V (fx d (nth j (fjns d) 0%nat)))) +
  sumn (fnp d) (fun k => Rabs (RWp d i k - V (fSp d i k)) * Rabs (V (fp d k))).

(** the sum of the magnitudes of the terms of row i of the canonical residual, and the number of
    roundings a term of it can meet *)
Definition star_mag (d : fdata) (l : nat) : R :=
  if Nat.ltb l (fny d)
  then Rabs (V (fb d l)) + Lsum (map (fun j => Rabs (V (fWx d l j) * V (fx d j))) (fju d))
  else Lsum (map (fun j => Rabs (V (fWx d l j) * V (fx d j))) (fjs d)) +
       sumn (fnp d) (fun k => Rabs (V (fWp d l k) * V (fp d k))) + Rabs (V (fh d (l - fny d)%nat)).
Definition canon_mag (d : fdata) (i : nat) : R :=
  sumn (fnw d) (fun l => Rabs (V (fR d i l)) * star_mag d l) +
  Rabs (V (fx d (nth i (fjbs d) 0%nat))) +
  sumn (fnns d) (fun j => Rabs (V (fS d i j) * V (fx d (nth j (fjns d) 0%nat)))) +
  sumn (fnp d) (fun k => Rabs (V (fSp d i k) * V (fp d k))).
Definition Rmag (d : fdata) (i : nat) : R := sumn (fnw d) (fun l => Rabs (V (fR d i l))).
Definition terms (d : fdata) : nat := (2 * fnx d + 2 * fnp d + fnw d + 6)%nat.
