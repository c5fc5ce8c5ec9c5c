(** Specification vocabulary for C42-C46. *)
From Coq Require Import List.
From mathcomp Require Import all_ssreflect all_algebra.
From Verif Require Import Canonical_model Residual_model.
Set Implicit Arguments.
Unset Strict Implicit.
Unset Printing Implicit Defensive.
Local Open Scope ring_scope.
Import GRing.Theory.

Section ResidualSpec.
Variables (F : realFieldType) (nx np ny nz : nat) (d : pdata F) (e : evals F) (Wx Wp : rawmx F) (u : mvec F).

(** s = g + Wx'w *)
Definition lagrangian (i : nat) : F := eg e i + \sum_(l < ny + nz) Wx l i * mw u l.

(** What is left of constraint l: b - Ax*x - Ap*p for the linear ones, -h for the others *)
Definition constraint_left (l : nat) : F :=
  if (l < ny)%N then db d l - \sum_(j < nx) Wx l j * mx u j - \sum_(k < np) Wp l k * mp u k else - eh e (l - ny)%N.

Definition on_bound (i : nat) : Prop := mx u i = dxl d i \/ mx u i = dxu d i.

(** Variable i is at an optimum within its bounds up to tol: |s| < tol, or on the lower bound
    with s > 0, or on the upper bound with s < 0. *)
Definition kkt_x (tol : F) (i : nat) : Prop :=
  `|lagrangian i| < tol \/ (mx u i = dxl d i /\ 0 < lagrangian i) \/ (mx u i = dxu d i /\ lagrangian i < 0).

(** The constraint left-overs combined by row i of R, and the round-off level below which
    the matrix-vector product zeroes its entries: eps times the sum of the magnitudes of the
    terms of R*a, where a = (b - Au*xu, Js*xs + Jp*p - h). *)
Definition combined (R : rawmx F) (i : nat) : F := \sum_(l < ny + nz) R i l * constraint_left l.
Definition roundoff (R : rawmx F) (a : rawvec F) (i : nat) : F := (2 ^+ 52)^-1 * \sum_(l < ny + nz) `|R i l| * `|a l|.
(** the combination is zero or larger than that *)
Definition no_cancellation (R : rawmx F) (a : rawvec F) (i : nat) : Prop :=
  \sum_(l < ny + nz) R i l * a l = 0 \/ roundoff R a i <= `|\sum_(l < ny + nz) R i l * a l|.
End ResidualSpec.
