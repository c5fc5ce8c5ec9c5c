(** The calculation as a whole: the iterations of Loop_model.v on a master problem of
    Wrapper_model.v, with the residual and the error of Residual_model.v in place of the
    parameters [fupdate] and [ferror].  Exact real arithmetic; bounds and iterates are
    extended reals.

    Left as parameters: the echelonizer ([ech], any function that meets the contract proved
    for EchelonizerW), what happens at points that are not finite ([nonfinite]), the Newton
    direction and the transformation (both arbitrary). *)
From Coq Require Import List Reals.
From mathcomp Require Import all_ssreflect all_algebra.
From Verif Require Import Num Index_model Num_rf R_rf LU_model Linear_model Canonical_model ResErr_model Residual_model.
From Verif Require Import Loop_model Wrapper_model.
Set Implicit Arguments.
Unset Strict Implicit.
Unset Printing Implicit Defensive.

(** the numbers of a vector without NaN and infinities *)
Fixpoint finite (l : list xreal) : option (list R) :=
  match l with
  | nil => Some nil
  | XF r :: l => match finite l with Some v => Some (r :: v) | None => None end
  | _ => None
  end.

(** the ordered field of real numbers *)
Notation RF := R_realFieldType.

Section Whole.
Variables (part : partition_impl) (M : master R xreal).
Let nx := ms_nx M. Let np := ms_np M. Let nyM := ms_ny M. Let nzM := ms_nz M.

Definition vec (l : list R) : rawvec RF := fun i => List.nth i l R0.

(** A bound enters ResidualFunction.cpp:186-187, Stability.cpp:44-45 and
    ResidualErrors.cpp:100-101 only through the comparison x[i] == bound[i]; a bound that is
    not a number of R differs from every x[i], for which x[i] + 1 stands here. *)
Definition bnum (b : xreal) (x : R) : R := match b with XF r => r | _ => Rplus x R1 end.

(** ResidualFunction.cpp:107-109 *)
Definition m_data (x : list R) : pdata RF :=
  PData (vec (ms_b M)) (fun i => bnum (List.nth i (ms_xlower M) XNaN) (vec x i)) (fun i => bnum (List.nth i (ms_xupper M) XNaN) (vec x i)).

(** ResidualFunction.cpp:143-160: the functions are called with cleared results (they are
    deterministic here); h has no rows when nz = 0 and v none when np = 0 *)
Definition m_f (x p : list R) := ocall (ms_f M) x p (ms_c M) ozero.
Definition m_h (x p : list R) := ccall (ms_h M) x p (ms_c M) czero.
Definition m_v (x p : list R) := ccall (ms_v M) x p (ms_c M) czero.
Definition m_evals (x p : list R) : evals RF :=
  Evals (o_fx (m_f x p)) (o_fxx (m_f x p)) (o_fxp (m_f x p)) (c_val (m_h x p)) (c_val (m_v x p)) (c_ddx (m_v x p)) (c_ddp (m_v x p)).

(** EchelonizerW.cpp:42-67, 85-89: W = [Ax Ap; Jx Jp] *)
Definition m_Wx (x p : list R) : rawmx RF := fun l j => if (l < nyM)%N then mget (ms_Ax M) l j else c_ddx (m_h x p) (l - nyM)%N j.
Definition m_Wp (x p : list R) : rawmx RF := fun l k => if (l < nyM)%N then mget (ms_Ap M) l k else c_ddp (m_h x p) (l - nyM)%N k.

Variable E : Type.   (* the state of everything else *)
(** EchelonizerW::update with the weights of ResidualFunction.cpp:186-187 *)
Variable ech : E -> rawmx RF -> rawmx RF -> rawvec RF -> E * rwq RF.
Variable nonfinite : E -> uvec xreal -> E * xreal.

(** State of ResidualFunction and ResidualErrors: what the echelonizer holds, the result of
    the last update (None: not finite, or an exception of Canonicalizer, see C68) and the error *)
Record world := World { w_e : E; w_q : rwq RF; w_res : option (residual RF); w_err : xreal }.

(** ResidualFunction.cpp:113-121 F.update(u) and ResidualErrors.cpp:60-107 E.update(u, F) *)
Definition w_update (w : world) (u : uvec xreal) : world :=
  match finite (ux u), finite (up u), finite (uw u) with
  | Some x, Some p, Some y =>
      let d := m_data x in
      let '(e, q) := ech (w_e w) (m_Wx x p) (m_Wp x p) (rf_weight d (vec x)) in
      match rf_update part nx np nyM nzM d (m_evals x p) (m_Wx x p) (m_Wp x p) q (MVec (vec x) (vec p) (vec y)) with
      | Some r => World e q (Some r) (XF (rerror r))
      | None => World e q None XNaN
      end
  | _, _, _ => let '(e, err) := nonfinite (w_e w) u in World e (w_q w) None err
  end.

(** MasterSolver.cpp:146-147: the bounds of the problem *)
Definition m_bounds : bounds xreal := Bounds (ms_xlower M) (ms_xupper M) (ms_plower M) (ms_pupper M).

(** MasterSolver.cpp:115-122 *)
Definition m_solve (newton : world -> world * uvec xreal) phi check (fuel : nat) (o : options xreal) (w : world) (hist : list xreal) (u : uvec xreal) :=
  solve world w_update (fun w _ => w_err w) newton phi check fuel m_bounds o w hist u.

(** MasterSolver.cpp:184-199 finalize: the state handed back.  If the last update did not go
    through (see [w_res]) the index sets and s are those from before; the code then reads
    what an earlier update left. *)
Definition finalize (m : mstate xreal) (w : world) (u : uvec xreal) : mstate xreal :=
  match w_res w with
  | None => MState (ux u) (up u) (uw u) (t_s m) (t_js m) (t_ju m) (t_jlu m) (t_juu m) (t_jb m) (t_jn m)
  | Some r =>
      let ss := rst r in
      MState (ux u) (up u) (uw u) (List.map XF (st_s ss)) (status_js ss) (status_ju ss) (status_jlu ss) (status_juu ss)
        (kjb (rc r)) (kjn (rc r))
  end.
End Whole.
Arguments World {E}. Arguments w_e {E}. Arguments w_q {E}. Arguments w_res {E}. Arguments w_err {E}.

(** Solver.cpp:346-354 (and 390-393) Solver::solve.  [oAx], [oAp], [obc] and [m] are the matrices of the master
    problem and the master state that the solver holds from before, [w] and [hist] the state of
    the components.  [None]: an exception, or out of fuel. *)
Definition u_solve (part : partition_impl) (E : Type) (ech : E -> rawmx RF -> rawmx RF -> rawvec RF -> E * rwq RF)
    (nonfinite : E -> uvec xreal -> E * xreal) (newton : world E -> world E * uvec xreal) phi check (fuel : nat) (o : options xreal)
    (f1 f2 f3 : nat -> R) (oAx oAp obc : mat R) (w : world E) (hist : list xreal) (m : mstate xreal)
    (P : problem R xreal) (st : ustate xreal) : option (result xreal * ustate xreal) :=
  match update_master f1 f2 f3 oAx oAp obc P with                                        (* 348 *)
  | None => None
  | Some M =>
      let m := to_master m st in                                                         (* 350 *)
      match m_solve part M ech nonfinite newton phi check fuel o w hist (UVec (t_x m) (t_p m) (t_w m)) with (* 351 *)
      | None => None
      | Some (r, s) => Some (r, of_master part (p_dims P) (finalize m (s_w s) (s_u s)) st)    (* 352 *)
      end
  end.
