(** A debug build of the solver: the iterations of Loop_model.v with the assertions
    (assert of <cassert>) that lie on the way of MasterSolver::solve.

    An assertion that fails ends the program: outcome [Aborted].  The assertions are those of
    MasterSolver.cpp:202-211, ResidualFunction.cpp:264-269, EchelonizerW.cpp:73-80, 124 and 140,
    Stability.cpp:41-43 and 76, ResidualErrors.cpp:113-120 and BacktrackSearch.cpp:61-64.

    Left out: assertions whose two sides are the same number by construction (the sizes of
    members that initialize has just resized: EchelonizerW.cpp:48-51, 75-80, ResidualVector.cpp:61-68,
    ResidualErrors.cpp:114-116, NewtonStep.cpp:69-72, LU.cpp:73, 94), Stability.cpp:107 (its
    sides are equal for every input: nbs + pos2 + (nn - pos1) + (pos1 - pos2) = nx),
    Echelonizer.cpp:183-193 (the pivots; see DebugE_model.v), Outputter.cpp:128 (only with the
    output table), and the assertions inside Eigen. *)
From Coq Require Import List Arith Bool ZArith.
From Verif Require Import Num Loop_model Index_model.
Import ListNotations.

Inductive outcome (A : Type) := Aborted | Done (a : A).
Arguments Aborted {A}.
Arguments Done {A} a.
Definition obind {A B} (x : outcome A) (f : A -> outcome B) : outcome B :=
  match x with Aborted => Aborted | Done a => f a end.
Definition assert_ {A} (b : bool) (x : outcome A) : outcome A := if b then x else Aborted.

Section Asserts.
Context {T : Type} {N : Num T}.

(** (a.array() <= b.array()).all() *)
Definition all_le (a b : list T) : bool := forallb (fun c => nleb (fst c) (snd c)) (combine a b).
(** BacktrackSearch.cpp:61-64; a >= b of the source is b <= a *)
Definition bt_asserts (B : bounds T) (uo : uvec T) : bool :=
  all_le (ux uo) (xhi B) && all_le (xlo B) (ux uo) && all_le (up uo) (phi_ B) && all_le (plo B) (up uo).

(** MasterDims (MasterDims.hpp): numbers of variables x and p, of linear and of nonlinear
    constraints; b is given by its size *)
Record dims := Dims { d_nx : nat; d_np : nat; d_ny : nat; d_nz : nat; d_b : nat }.
Definition d_nw (d : dims) : nat := d_ny d + d_nz d.

(** MasterSolver.cpp:205-208 and, the same comparisons, ResidualFunction.cpp:265-266, NewtonStep.cpp:69-72,
    ResidualErrors.cpp:117-120 and Stability.cpp:42-43.  202-204 (the functions are given) are
    part of what the Loop_model.v takes as parameters. *)
Definition bound_asserts (d : dims) (B : bounds T) : bool :=
  Nat.eqb (d_nx d) (length (xlo B)) && Nat.eqb (d_nx d) (length (xhi B)) &&
  Nat.eqb (d_np d) (length (plo B)) && Nat.eqb (d_np d) (length (phi_ B)).
(** MasterSolver.cpp:209-211, ResidualFunction.cpp:267-269 *)
Definition size_asserts (d : dims) (u : uvec T) : bool :=
  Nat.eqb (d_nx d) (length (ux u)) && Nat.eqb (d_np d) (length (up u)) && Nat.eqb (d_nw d) (length (uw u)).
End Asserts.

Section Debug.
Context {T : Type} {N : Num T}.
Variable part : partition_impl.
Variable W : Type.
Variable fupdate : W -> uvec T -> W.
Variable ferror : W -> uvec T -> T.
Variable newton : W -> W * uvec T.
Variable phi : option (W -> list T -> list T -> W * bool * list T).
Variable check : option (W -> uvec T -> uvec T -> T -> nat -> bool).
(** the basic variables (RWQ().jb) that the evaluation leaves in the world *)
Variable basic : W -> list nat.
Variable d : dims.

(** The number of rows of R in EchelonizerExtended: those of Ax after the constructor
    (EchelonizerExtended.cpp:67-68), those of [Ax; Jx] after an update with a Jx that is not
    empty (145), those of Ax after an update with an empty Jx (82-88) *)
Definition rows_init : nat := d_ny d.
Definition rows_update : nat := if Nat.eqb (d_nz d * d_nx d) 0 then d_ny d else d_ny d + d_nz d.

(** F.update(u); E.update(u, F).  [rows] is the number of rows of R before the call. *)
Definition update_d (rows : nat) (s : state T W) (u : uvec T) : outcome (nat * state T W) :=
  assert_ (Nat.eqb (d_b d) (d_ny d) && size_asserts d u)                          (* ResidualFunction.cpp:264-269 *)
  (assert_ (negb (Nat.eqb (d_nw d * (d_nx d + d_np d)) 0))                        (* EchelonizerW.cpp:124, 140 *)
  (assert_ (negb (Nat.eqb rows 0))                                               (* EchelonizerW.cpp:73 *)
  (let s' := update W fupdate ferror s u in
   assert_ (stability_assert_76 part (d_nx d) (basic (s_w s')))                  (* Stability.cpp:76 *)
  (assert_ (Nat.ltb 0 (d_nx d))                                                  (* ResidualErrors.cpp:113 *)
   (Done (rows_update, s')))))).

(** MasterSolver.cpp:141-160 *)
Definition initialize_d (B : bounds T) (w : W) (hist : list T) (u : uvec T) : outcome (nat * state T W) :=
  assert_ (bound_asserts d B && size_asserts d u)                                (* MasterSolver.cpp:205-211 *)
  (let u := clampu B u in
   obind (update_d rows_init (State w u u nzero 0 hist [] []) u) (fun '(rows, s) =>
   Done (rows, State (s_w s) u u (s_err s) 0 (s_hist s) (s_evals s) [u]))).

(** TransformStep.cpp:44-77, see [transform] of Loop_model.v *)
Definition transform_d (B : bounds T) (rows : nat) (s : state T W) : outcome (nat * state T W) :=
  match phi with
  | None => Done (rows, s)
  | Some ph =>
      let ubkp := s_u s in
      let '(w, out, x) := ph (s_w s) (ux (s_uo s)) (ux (s_u s)) in
      if negb out then update_d rows (with_u W s w ubkp) ubkp                     (* 53-58 *)
      else
        let u := UVec (clampv x (xlo B) (xhi B)) (up ubkp) (uw ubkp) in
        obind (update_d rows (with_u W s w u) u) (fun '(rows1, s1) =>             (* 64-65 *)
        if ngtb (s_err s1) (s_err s) then update_d rows1 (with_u W s1 (s_w s1) ubkp) ubkp (* 69-74 *)
        else Done (rows1, s1))
  end.

(** MasterSolver.cpp:173-182, ErrorControl.cpp:51-61 *)
Definition step_d (B : bounds T) (o : options T) (rows : nat) (s : state T W) : outcome (nat * state T W) :=
  let s := State (s_w s) (s_uo s) (s_u s) (s_err s) (S (s_iters s)) (s_hist s) (s_evals s) (s_iterates s) in
  let s := newton_apply W newton s in
  obind (transform_d B rows s) (fun '(rows, s) =>
  assert_ (bt_asserts B (s_uo s))                                                (* BacktrackSearch.cpp:61-64 *)
  (let s := with_u W s (s_w s) (backtrack (o_fix o) B (s_uo s) (s_u s)) in
   obind (update_d rows s (s_u s)) (fun '(rows, s) =>
   Done (rows, State (s_w s) (s_uo s) (s_u s) (s_err s) (s_iters s) (s_hist s) (s_evals s) (s_u s :: s_iterates s))))).

(** MasterSolver.cpp:119.  [None]: out of fuel. *)
Fixpoint loop_d (fuel : nat) (B : bounds T) (o : options T) (rows : nat) (s : state T W) : option (outcome (state T W)) :=
  match fuel with
  | 0 => None
  | S fuel' =>
      match step_d B o rows s with
      | Aborted => Some Aborted
      | Done (rows, s) => let '(s, continue) := stepping W check o s in if continue then loop_d fuel' B o rows s else Some (Done s)
      end
  end.

(** MasterSolver.cpp:115-122, 184-186 *)
Definition solve_d (fuel : nat) (B : bounds T) (o : options T) (w : W) (hist : list T) (u : uvec T) : option (outcome (result T * state T W)) :=
  match initialize_d B w hist u with
  | Aborted => Some Aborted
  | Done (rows, s) =>
      match loop_d fuel B o rows s with
      | None => None
      | Some Aborted => Some Aborted
      | Some (Done s) => Some (Done (Result (Nat.leb (s_iters s) (o_maxiters o)) (s_iters s) nzero, s))
      end
  end.
End Debug.
