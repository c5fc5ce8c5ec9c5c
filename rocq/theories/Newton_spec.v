(** Specification vocabulary for C80 and C81: the Newton equations. *)
From mathcomp Require Import all_ssreflect all_fingroup all_algebra.
From Verif Require Import LU_model LU_spec Linear_model Linear_spec Canonical_model Residual_model Newton_model.
Set Implicit Arguments.
Unset Strict Implicit.
Unset Printing Implicit Defensive.
Local Open Scope ring_scope.

Section NewtonSpec.
Variables (F : realFieldType) (nx np nw : nat) (e : evals F) (Wx Wp : rawmx F) (fixed : nat -> Prop).

(** The optimality conditions linearised at a point where the derivatives are those of e, Wx
    and Wp, for a step du = (dx, dp, dw) that does not move the variables [fixed]:
      Hxx dx + Hxp dp + Wx' dw = a (rows of the other variables),  Vpx dx + Vpp dp = b,  Wx dx + Wp dp = c. *)
Definition newton_eqs (a b c : rawvec F) (du : mvec F) : Prop :=
  [/\ forall i, (i < nx)%N -> fixed i -> mx du i = 0,
      forall i, (i < nx)%N -> ~ fixed i ->
        \sum_(j < nx) eHxx e i j * mx du j + \sum_(k < np) eHxp e i k * mp du k + \sum_(l < nw) Wx l i * mw du l = a i,
      forall k, (k < np)%N -> \sum_(j < nx) eVpx e k j * mx du j + \sum_(l < np) eVpp e k l * mp du l = b k
    & forall l, (l < nw)%N -> \sum_(j < nx) Wx l j * mx du j + \sum_(k < np) Wp l k * mp du k = c l].

(** The step is zero *)
Definition no_step (du : mvec F) : Prop :=
  [/\ forall i, (i < nx)%N -> mx du i = 0, forall k, (k < np)%N -> mp du k = 0 & forall l, (l < nw)%N -> mw du l = 0].
(** These equations have at most one solution. *)
Definition regular : Prop := forall du, newton_eqs (fun _ => 0) (fun _ => 0) (fun _ => 0) du -> no_step du.
End NewtonSpec.

(** No equation of the reduced system is discarded for lack of magnitude (C33) and, for
    Rangespace, H is diagonal and there are no basic explicit variables (C38). *)
Definition newton_resolved (F : realFieldType) (lu : forall n, 'M[F]_n -> lufac F n) (eps : F) (meth : lsmethod) (np : nat) (r : residual F) : Prop :=
  let J := canon_cmat np (rM r) (rc r) in let a := newton_rhs np r in
  match meth with
  | Fullspace => resolved eps (lu _ (full_matrix J)) (full_rhs a)
  | Nullspace => resolved eps (lu _ (nM (null_decompose J))) (null_rhs (null_decompose J) a)
  | Rangespace => [/\ knbe (rc r) = 0%N, is_diag (cHss J), forall i, range_Hnene J i 0 != 0
                    & resolved eps (lu _ (range_matrix J)) (range_rhs J a)]
  end.
