(** Model of a Solver object that is used for several calculations: what it keeps from one call
    of solve to the next, and a call that starts from there. *)
From Coq Require Import List Reals.
From mathcomp Require Import all_ssreflect all_algebra.
From Verif Require Import Num Num_facts Index_model Index_spec Num_rf R_rf Echelon_model LU_model Linear_model Canonical_model.
From Verif Require Import Residual_model EchelonO_model Loop_model Wrapper_model End_model Newton_model P_EchelonO.
Set Implicit Arguments.
Unset Strict Implicit.
Unset Printing Implicit Defensive.
Local Open Scope ring_scope.

(** What Solver::Impl (Solver.cpp:28-57) holds between two calls: the matrices Ax, Ap and bc of mproblem,
    what ResidualFunction and ResidualErrors have of their last update, the errors recorded by
    Convergence (Convergence.cpp:29) and mstate.  The other members of mproblem and the options
    are written by every call (Solver.cpp:106-280, 60-103). *)
Record memory := Memory { k_Ax : mat R; k_Ap : mat R; k_bc : mat R; k_res : option (residual RF); k_err : xreal;
                          k_hist : list xreal; k_m : mstate xreal }.
(** The contents of the memory that the resizes of the three matrices get (Solver.cpp:261, 269, 277),
    if they allocate *)
Record fresh := Fresh { g_Ax : nat -> R; g_Ap : nat -> R; g_bc : nat -> R }.

Section Reuse.
Variables (part : partition_impl) (lu : lu_impl RF) (srt : sort_impl RF) (th sigma : RF).
Variable nonfinite : list (rawmx RF * rawvec RF) -> uvec xreal -> list (rawmx RF * rawvec RF) * xreal.
Variables (lus : forall n, 'M[RF]_n -> lufac RF n) (eps : RF) (meth : lsmethod).
Variable failed : world (list (rawmx RF * rawvec RF)) -> world (list (rawmx RF * rawvec RF)) * uvec xreal.
(** the echelon form that a new EchelonizerW holds before its first update *)
Variable q0 : master R xreal -> rwq RF.

(** Solver.cpp:346-354, called with memory [k].  EchelonizerW::initialize (EchelonizerW.cpp:58) makes a new
    EchelonizerExtended, so nothing of the earlier updates of that object is left; the other components keep what they have. *)
Definition solver_solve phi check (fuel : nat) (o : options xreal) (k : memory) (g : fresh) (P : problem R xreal) (st : ustate xreal) :=
  match update_master (g_Ax g) (g_Ap g) (g_bc g) (k_Ax k) (k_Ap k) (k_bc k) P with
  | None => None
  | Some M =>
      u_solve part (the_ech lu srt th sigma M) nonfinite (w_newton M lus eps meth failed) phi check fuel o
        (g_Ax g) (g_Ap g) (g_bc g) (k_Ax k) (k_Ap k) (k_bc k) (World nil (q0 M) (k_res k) (k_err k)) (k_hist k) (k_m k) P st
  end.
End Reuse.

(** Solver.cpp:28-57: a new Solver.  Its matrices are empty. *)
Definition no_matrix : mat R := Mat 0 0 (fun _ => R0).
Definition new_memory (k : memory) : Prop := k_Ax k = no_matrix /\ k_Ap k = no_matrix /\ k_bc k = no_matrix /\ k_hist k = nil.
