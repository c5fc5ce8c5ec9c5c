(** The options handed to the user's functions: which derivatives they are asked for and the
    basic variables (ObjectiveFunction.hpp:102-119, ConstraintFunction.hpp:94-110,
    ResidualFunction.cpp:143-179).  Everywhere else in this development the functions ignore the
    options; here they receive them. *)
From Coq Require Import List Reals.
From mathcomp Require Import all_ssreflect all_algebra.
From Verif Require Import Num Index_model Num_rf R_rf LU_model Linear_model Canonical_model ResErr_model Residual_model Sens_model.
From Verif Require Import Loop_model Wrapper_model End_model SensW_model.
Set Implicit Arguments.
Unset Strict Implicit.
Unset Printing Implicit Defensive.

(** ObjectiveOptions and ConstraintOptions have the same members: eval.ddx (eval.fxx), eval.ddp
    (eval.fxp), eval.ddc (eval.fxc) and ibasicvars *)
Record evopts := EvOpts { e_ddx : bool; e_ddp : bool; e_ddc : bool; e_ib : list nat }.

(** ResidualFunction.cpp:163-179: updateFunctionEvals, ...SkippingJacobianEvals and
    ...WithAllJacobianEvals *)
Inductive evkind := EvUpdate | EvSkip | EvAll.
Definition asked (k : evkind) : bool * bool * bool :=
  match k with EvUpdate => (true, true, false) | EvSkip => (false, false, false) | EvAll => (true, true, true) end.

(** ResidualFunction.cpp:150-154; [jb]: the basic variables of the echelon form at the time *)
Definition ev_options (k : evkind) (np nc : nat) (jb : list nat) : evopts :=
  let '(ddx, ddp, ddc) := asked k in EvOpts ddx (ddp && (0 < np)%N) (ddc && (0 < nc)%N) jb.

(** The user's functions, with options *)
Record ofuns := OFuns { of_f : evopts -> ofun R; of_he : evopts -> cfun R; of_hg : evopts -> cfun R; of_v : evopts -> cfun R }.

(** Solver.cpp:146-236: the functions of the master problem pass the options on (161, 202, 206, 235) *)
Definition master_with (F : ofuns) (d : dims) (M : master R xreal) (o : evopts) : master R xreal :=
  Master (ms_nx M) (ms_np M) (ms_ny M) (ms_nz M) (ms_r M)
    (master_f d (of_f F o)) (master_h d (of_he F o) (of_hg F o)) (master_v d (of_v F o))
    (ms_Ax M) (ms_Ap M) (ms_b M) (ms_xlower M) (ms_xupper M) (ms_plower M) (ms_pupper M) (ms_c M) (ms_bc M).

Section Updates.
Variables (F : ofuns) (d : dims) (part : partition_impl) (M : master R xreal).
Variable E : Type.
Variable ech : E -> rawmx RF -> rawmx RF -> rawvec RF -> E * rwq RF.
Variable nonfinite : E -> uvec xreal -> E * xreal.

(** the options given to the functions by an evaluation of kind [k] when the echelon form is that of
    [w], and the master problem as this evaluation sees it *)
Definition options_at (k : evkind) (w : world E) : evopts := ev_options k (ms_np M) (length (ms_c M)) (qjb (w_q w)).
Definition seen (k : evkind) (w : world E) : master R xreal := master_with F d M (options_at k w).
(** ResidualFunction.cpp:113-121, 133-141: the functions are evaluated before the echelon form is
    updated *)
Definition wo_update (k : evkind) (w : world E) (u : uvec xreal) : world E :=
  w_update part (seen k w) ech nonfinite w u.
End Updates.

(** Solver.cpp:346-354, as [u_solve], with functions that get options *)
Definition uo_solve (F : ofuns) (part : partition_impl) (E : Type) (ech : E -> rawmx RF -> rawmx RF -> rawvec RF -> E * rwq RF)
    (nonfinite : E -> uvec xreal -> E * xreal) (newton : world E -> world E * uvec xreal) phi check (fuel : nat) (o : options xreal)
    (f1 f2 f3 : nat -> R) (oAx oAp obc : mat R) (w : world E) (hist : list xreal) (m : mstate xreal)
    (P : problem R xreal) (st : ustate xreal) : option (result xreal * ustate xreal) :=
  match update_master f1 f2 f3 oAx oAp obc P with
  | None => None
  | Some M =>
      let m := to_master m st in
      match solve (world E) (wo_update F (p_dims P) part M ech nonfinite EvUpdate) (fun w _ => w_err w) newton phi check fuel (m_bounds M) o w hist
              (UVec (t_x m) (t_p m) (t_w m)) with
      | None => None
      | Some (r, s) => Some (r, of_master part (p_dims P) (finalize m (s_w s) (s_u s)) st)
      end
  end.

(** Solver.cpp:357-366, as [u_solve_sens]; MasterSolver.cpp:127 asks for all derivatives *)
Definition uo_solve_sens (F : ofuns) (lu : forall n, 'M[RF]_n -> lufac RF n) (eps : RF) (r0 : nat -> rawvec RF) (s0 : nat -> Sens_model.sens RF)
    (part : partition_impl) (E : Type) (ech : E -> rawmx RF -> rawmx RF -> rawvec RF -> E * rwq RF)
    (nonfinite : E -> uvec xreal -> E * xreal) (newton : world E -> world E * uvec xreal) phi check (fuel : nat) (o : options xreal)
    (f1 f2 f3 : nat -> R) (oAx oAp obc : mat R) (w : world E) (hist : list xreal) (m : mstate xreal)
    (P : problem R xreal) (st : ustate xreal) : option (result xreal * ustate xreal * Wrapper_model.sens R) :=
  match update_master f1 f2 f3 oAx oAp obc P with
  | None => None
  | Some M =>
      if ~~ bc_ok M then None else
      let m := to_master m st in
      match solve (world E) (wo_update F (p_dims P) part M ech nonfinite EvUpdate) (fun w _ => w_err w) newton phi check fuel (m_bounds M) o w hist
              (UVec (t_x m) (t_p m) (t_w m)) with
      | None => None
      | Some (r, s) =>
          let w' := wo_update F (p_dims P) part M ech nonfinite EvAll (s_w s) (s_u s) in
          match w_res w', finite (ux (s_u s)), finite (up (s_u s)) with
          | Some rr, Some x, Some p =>
              match m_sens (seen F (p_dims P) M EvAll (s_w s)) lu eps r0 s0 rr x p with
              | None => None
              | Some g => Some (r, of_master part (p_dims P) (finalize m (s_w s) (s_u s)) st, of_msens (p_dims P) g)
              end
          | _, _, _ => None
          end
      end
  end.
