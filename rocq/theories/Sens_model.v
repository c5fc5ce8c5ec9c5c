(** Model of Optima/SensitivitySolver.cpp, one sensitivity parameter c at a time, in exact
    arithmetic.  The loop at lines 82-90 treats the columns independently of each other. *)
From Coq Require Import List.
From mathcomp Require Import all_ssreflect all_algebra.
From Verif Require Import Num Index_model Num_rf LU_model Linear_model Canonical_model Residual_model.
Set Implicit Arguments.
Unset Strict Implicit.
Unset Printing Implicit Defensive.
Local Open Scope ring_scope.
Import Order.TTheory GRing.Theory Num.Theory.

Section Sens.
Variables (F : realFieldType) (nx np ny nz : nat).
Let nw := (ny + nz)%N.

(** One column of the derivatives with respect to c of the gradient of f, of v, of b and of h
    (SensitivitySolver.cpp:60-63 and 45) *)
Record cderivs := CDerivs { cfx : rawvec F; cv : rawvec F; cb : rawvec F; ch : rawvec F }.

(** SensitivitySolver.cpp:84-88.  [r0] is what the vector r held before. *)
Definition sens_rhs (js ju : list nat) (k : cderivs) (r0 : rawvec F) : mvec F :=
  MVec (fun i => if contains i ju then 0                          (* 85 *)
                 else if contains i js then - cfx k i             (* 84 *)
                 else r0 i)
       (fun l => - cv k l)                                        (* 86 *)
       (fun l => if (l < ny)%N then cb k l else - ch k (l - ny)%N).   (* 87-88 *)

(** MasterSensitivity.hpp: one column of xc, pc, wc, sc *)
Record sens := Sens { sx : rawvec F; sp : rawvec F; sw : rawvec F; ss : rawvec F }.

(** SensitivitySolver.cpp:51-99 for the residual data [r] of the state; LinearSolver is set to
    the Nullspace method (39-41) and [f] are the LU factors computed by decompose (80).
    [s0] is what the column of sensitivity held before. *)
Definition sens_solve (eps : F) (r : residual F) (k : cderivs) (f : lufac F (knbe (rc r) + ((knne (rc r) + knni (rc r)) + (np + knbe (rc r)))))
    (r0 : rawvec F) (s0 : sens) : option sens :=
  let js := status_js (rst r) in let ju := status_ju (rst r) in let jms := status_jms (rst r) in
  omap (fun u : mvec F =>
    Sens (fun i => if contains i jms then 0 else mx u i)                                       (* 92 *)
         (mp u) (mw u)
         (fun i => if contains i ju then cfx k i + \sum_(l < nw) mWx (rM r) l i * mw u l       (* 97 *)
                   else if contains i js then 0                                                (* 96 *)
                   else ss s0 i))
    (ls_solve eps nw (rM r) (MNullspace f) (sens_rhs js ju k r0) (sx s0)).
End Sens.
