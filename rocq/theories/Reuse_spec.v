(** Specification for C100: Solver objects that have been used before. *)
From Coq Require Import List Reals.
From mathcomp Require Import all_ssreflect all_algebra.
From Verif Require Import Num Num_facts Loop_model Wrapper_model Num_rf R_rf Residual_model End_model Reuse_model.
Set Implicit Arguments.
Unset Strict Implicit.
Unset Printing Implicit Defensive.

(** The memory of a matrix with n entries is the numbers at the positions below n.  The model has a number at all
    positions; this fixes the meaningless ones. *)
Definition nothing_beyond (n : nat) (f : nat -> R) : Prop := forall i, (n <= i)%coq_nat -> f i = R0.
Definition fresh_for (d : dims) (g : fresh) : Prop :=
  nothing_beyond (ny d * nxbar d) (g_Ax g) /\ nothing_beyond (ny d * d_p d) (g_Ap g) /\ nothing_beyond (ny d * d_c d) (g_bc g).

(** The memories that a Solver can have: that of a new one, and what any call leaves - whether it
    returns, with whatever result, or is left by an exception after the matrices were written.  What else
    it leaves may be anything. *)
Inductive used : memory -> Prop :=
| used_new : forall k, new_memory k -> used k
| used_call : forall k g (P : problem R xreal) M res err hist m, used k -> fresh_for (p_dims P) g ->
    update_master (g_Ax g) (g_Ap g) (g_bc g) (k_Ax k) (k_Ap k) (k_bc k) P = Some M ->
    used (Memory (ms_Ax M) (ms_Ap M) (ms_bc M) res err hist m).

(** Two outcomes agree: both calls fail, or both return the same result and the same values *)
Definition same_values (st st' : ustate xreal) : Prop :=
  s_x st = s_x st' /\ s_p st = s_p st' /\ s_ye st = s_ye st' /\ s_yg st = s_yg st' /\ s_ze st = s_ze st' /\ s_zg st = s_zg st' /\
  s_xbg st = s_xbg st' /\ s_xhg st = s_xhg st'.
Definition agree (a b : option (result xreal * ustate xreal)) : Prop :=
  match a, b with
  | None, None => True
  | Some (r, st), Some (r', st') => r = r' /\ same_values st st'
  | _, _ => False
  end.
