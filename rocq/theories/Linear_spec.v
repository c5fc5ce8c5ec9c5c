(** Specification vocabulary for C36-C40. *)
From mathcomp Require Import all_ssreflect all_algebra.
From Verif Require Import Linear_model.
Set Implicit Arguments.
Unset Strict Implicit.
Unset Printing Implicit Defensive.
Local Open Scope ring_scope.
Import GRing.Theory.

Section LinearSpec.
Variables (F : fieldType) (nb nn np : nat).
(** The canonical saddle-point equations, xs = (xb, xn):
      Hss xs + Hsp p + (wb, S' wb) = as,   Vps xs + Vpp p = ap,   xb + S xn + Sp p = aw. *)
Definition canonical_eqs (J : cmat F nb nn np) (a u : cvec F nb nn np) : Prop :=
  [/\ cHss J *m vxs u + cHsp J *m vp u + col_mx (vw u) ((cS J)^T *m vw u) = vxs a,
      cVps J *m vxs u + cVpp J *m vp u = vp a
    & usubmx (vxs u) + cS J *m dsubmx (vxs u) + cSp J *m vp u = vw a].

(** The canonical system is nonsingular: only zero solves the homogeneous equations. *)
Definition czero : cvec F nb nn np := CVec 0 0 0.
Definition nonsingular (J : cmat F nb nn np) : Prop :=
  forall u, canonical_eqs J czero u -> u = czero.

(** every off-diagonal entry is zero *)
Definition is_diag k (M : 'M[F]_k) : Prop := forall i j, i != j -> M i j = 0.
End LinearSpec.
