(** When the echelonizer of the solver tells zero coefficients from the others. *)
From Coq Require Import Reals.
From mathcomp Require Import all_ssreflect all_algebra.
From Verif Require Import Num R_rf Index_model Canonical_model EchelonO_model EchelonO_spec Wrapper_model End_model.
Set Implicit Arguments.
Unset Strict Implicit.
Unset Printing Implicit Defensive.

(** The threshold of the echelonizer, 1e-8 (Echelonizer.cpp:87) *)
Definition code_threshold : R := Rinv (IZR 100000000).

(** In the variables X (x and the slacks) at the parameters p: solved for any set of basic
    variables, neither the linear constraints alone nor all constraints together depend on another
    variable with a coefficient that is nonzero and at most [th] *)
Definition well_pivoted (th : R) (M : master R xreal) (X p : list R) : Prop :=
  @resolved_by RF th (ms_ny M) (ms_nx M) (fun i j => mget (ms_Ax M) i j) /\
  @resolved_by RF th (ms_ny M + ms_nz M) (ms_nx M) (m_Wx M X p).
