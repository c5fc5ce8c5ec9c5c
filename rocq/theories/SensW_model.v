(** Model of the calculation with sensitivity derivatives, Solver::solve(problem, state,
    sensitivity): the calculation of End_model.v followed by SensitivitySolver (Sens_model.v) for
    every parameter c.  Exact real arithmetic. *)
From Coq Require Import List Reals.
From mathcomp Require Import all_ssreflect all_algebra.
From Verif Require Import Num Index_model Num_rf R_rf LU_model Linear_model Canonical_model ResErr_model Residual_model Sens_model.
From Verif Require Import Loop_model Wrapper_model End_model.
Set Implicit Arguments.
Unset Strict Implicit.
Unset Printing Implicit Defensive.

Section SensWhole.
Variable M : master R xreal.
Let nx := ms_nx M. Let np := ms_np M. Let nyM := ms_ny M. Let nzM := ms_nz M.

(** SensitivitySolver.cpp:44: the number of parameters *)
Definition m_nc : nat := length (ms_c M).
(** SensitivitySolver.cpp:46-47: bc must have a column for every parameter ([true]: no exception) *)
Definition bc_ok : bool := (m_nc == 0%N) || ((m_cols (ms_bc M) == m_nc) && (m_rows (ms_bc M) == nyM)).

(** SensitivitySolver.cpp:61-64, 84-88: column k of the derivatives with respect to c, from the
    evaluation at (x, p) with all derivatives (ResidualFunction.cpp:175-179; the functions are
    deterministic here, so it gives what the evaluations before gave) *)
Definition m_cderivs (x p : list R) (k : nat) : cderivs RF :=
  @CDerivs RF (fun i => o_fxc (m_f M x p) i k) (fun l => c_ddc (m_v M x p) l k) (fun l => mget (ms_bc M) l k) (fun l => c_ddc (m_h M x p) l k).

(** [lu]: the factorization made by LinearSolver::decompose (80); [eps]: the level at which
    LU.cpp discards equations *)
Variables (lu : forall n, 'M[RF]_n -> lufac RF n) (eps : RF).
(** What the vector r and the columns of the sensitivity matrices held before *)
Variables (r0 : nat -> rawvec RF) (s0 : nat -> Sens_model.sens RF).

(** SensitivitySolver.cpp:82-97 for column k; [rr] is the state of the residual function *)
Definition m_column (rr : residual RF) (x p : list R) (k : nat) : option (Sens_model.sens RF) :=
  @sens_solve RF np nyM nzM eps rr (m_cderivs x p k) (lu (nM (null_decompose (canon_cmat np (rM rr) (rc rr))))) (r0 k) (s0 k).

(** the loop over the columns; [None] when one of them fails *)
Fixpoint all_columns (f : nat -> option (Sens_model.sens RF)) (ks : list nat) : option (list (Sens_model.sens RF)) :=
  match ks with
  | nil => Some nil
  | k :: ks => match f k, all_columns f ks with Some s, Some l => Some (s :: l) | _, _ => None end
  end.
(** a matrix with n rows and the given columns *)
Definition rows_of (n : nat) (get : Sens_model.sens RF -> rawvec RF) (cols : list (Sens_model.sens RF)) : list (list R) :=
  List.map (fun i => List.map (fun s => get s i) cols) (List.seq 0 n).

(** SensitivitySolver.cpp:51-99: the matrices get nc columns (55-58) *)
Definition m_sens (rr : residual RF) (x p : list R) : option (msens R) :=
  match all_columns (m_column rr x p) (List.seq 0 m_nc) with
  | None => None
  | Some cols => Some (MSens (rows_of nx (@sx RF) cols) (rows_of np (@sp RF) cols) (rows_of (nyM + nzM) (@sw RF) cols) (rows_of nx (@ss RF) cols))
  end.
End SensWhole.

(** Solver.cpp:357-366 (and 395-398) with MasterSolver.cpp:124-130.  The state handed back is
    set by finalize, before the sensitivity calculation.  F.updateOnlyJacobian (ResidualFunction.cpp:133-141)
    is [w_update] here: the same function evaluations (now with the derivatives
    with respect to c), echelon form, stability and canonical form; what [w_update] does besides, the residual vector and
    the error, is not read afterwards.  [None]: an exception, out of fuel, or - simplification - a
    point that is not finite. *)
Definition u_solve_sens (lu : forall n, 'M[RF]_n -> lufac RF n) (eps : RF) (r0 : nat -> rawvec RF) (s0 : nat -> Sens_model.sens RF)
    (part : partition_impl) (E : Type) (ech : E -> rawmx RF -> rawmx RF -> rawvec RF -> E * rwq RF)
    (nonfinite : E -> uvec xreal -> E * xreal) (newton : world E -> world E * uvec xreal) phi check (fuel : nat) (o : options xreal)
    (f1 f2 f3 : nat -> R) (oAx oAp obc : mat R) (w : world E) (hist : list xreal) (m : mstate xreal)
    (P : problem R xreal) (st : ustate xreal) : option (result xreal * ustate xreal * Wrapper_model.sens R) :=
  match update_master f1 f2 f3 oAx oAp obc P with                                        (* 359 *)
  | None => None
  | Some M =>
      if ~~ bc_ok M then None else                                                       (* MasterSolver.cpp:156 *)
      let m := to_master m st in                                                         (* 361 *)
      match m_solve part M ech nonfinite newton phi check fuel o w hist (UVec (t_x m) (t_p m) (t_w m)) with   (* MasterSolver.cpp:126 *)
      | None => None
      | Some (r, s) =>
          let w' := w_update part M ech nonfinite (s_w s) (s_u s) in                     (* MasterSolver.cpp:127 *)
          match w_res w', finite (ux (s_u s)), finite (up (s_u s)) with
          | Some rr, Some x, Some p =>
              match m_sens M lu eps r0 s0 rr x p with                                    (* MasterSolver.cpp:128 *)
              | None => None
              | Some g => Some (r, of_master part (p_dims P) (finalize m (s_w s) (s_u s)) st, of_msens (p_dims P) g)   (* 363-364 *)
              end
          | _, _, _ => None
          end
      end
  end.
