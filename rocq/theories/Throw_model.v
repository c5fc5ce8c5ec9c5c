(** Model of exceptions thrown by the user's functions during MasterSolver::solve and Solver::solve.
    As Loop_model.v, but the calls of the user's functions can throw.  Nothing in the code catches an
    exception, so it leaves solve at once; MasterState::u, which the iterations change in place, and the
    members of the solver keep what they had.
    The world [W] and the calls that do not run user code are as in Loop_model.v; what the user's functions and the
    interrupted updates leave in the world is up to the parameters. *)
From Coq Require Import List Arith Bool.
From Verif Require Import Num Index_model Loop_model Wrapper_model.
Import ListNotations.

(** the outcome of a call: it returns, or it is left by an exception, with the members of the solver as in the given state *)
Inductive run (A S : Type) := Ret (a : A) | Throw (s : S).
Arguments Ret {A S}. Arguments Throw {A S}.
Definition bind {A B S} (x : run A S) (f : A -> run B S) : run B S :=
  match x with Ret a => f a | Throw s => Throw s end.

Section Throw.
Context {T : Type} {N : Num T}.
Variable W : Type.
(** ResidualFunction.cpp:103-112, 143-159: true when r, f, h or v threw *)
Variable fupdate : W -> uvec T -> W * bool.
Variable ferror : W -> uvec T -> T.
Variable newton : W -> W * uvec T.
(** None when the transformation threw; the list is what it has left in u.x *)
Variable phi : option (W -> list T -> list T -> W * option bool * list T).
(** None when the check threw *)
Variable check : option (W -> uvec T -> uvec T -> T -> nat -> option bool).
Notation state := (state T W).

(** F.update(u); E.update(u, F): E is not updated when F.update throws *)
Definition t_update (s : state) (u : uvec T) : run state state :=
  let '(w, threw) := fupdate (s_w s) u in
  if threw then Throw (State w (s_uo s) u (s_err s) (s_iters s) (s_hist s) (u :: s_evals s) (s_iterates s))
  else Ret (State w (s_uo s) u (ferror w u) (s_iters s) (s_hist s) (u :: s_evals s) (s_iterates s)).

(** MasterSolver.cpp:141-160 *)
Definition t_initialize (B : bounds T) (w : W) (hist : list T) (u : uvec T) : run state state :=
  let u := clampu B u in
  bind (t_update (State w u u nzero 0 hist [] []) u) (fun s =>
  Ret (State (s_w s) u u (s_err s) 0 (s_hist s) (s_evals s) [u])).

(** TransformStep.cpp:44-77 *)
Definition t_transform (B : bounds T) (s : state) : run (state * bool) state :=
  match phi with
  | None => Ret (s, false)
  | Some ph =>
      let ubkp := s_u s in
      let '(w, outcome, x) := ph (s_w s) (ux (s_uo s)) (ux (s_u s)) in
      match outcome with
      | None => Throw (with_u W s w (UVec x (up ubkp) (uw ubkp)))
      | Some false => bind (t_update (with_u W s w ubkp) ubkp) (fun s => Ret (s, false))
      | Some true =>
          let u := UVec (clampv x (xlo B) (xhi B)) (up ubkp) (uw ubkp) in
          bind (t_update (with_u W s w u) u) (fun s1 =>
          if ngtb (s_err s1) (s_err s) then bind (t_update (with_u W s1 (s_w s1) ubkp) ubkp) (fun s => Ret (s, false))
          else Ret (s1, true))
      end
  end.

(** MasterSolver.cpp:173-182 *)
Definition t_step (B : bounds T) (o : options T) (s : state) : run state state :=
  let s := State (s_w s) (s_uo s) (s_u s) (s_err s) (S (s_iters s)) (s_hist s) (s_evals s) (s_iterates s) in
  let s := newton_apply W newton s in
  bind (t_transform B s) (fun sb =>
  let s := fst sb in
  let s := with_u W s (s_w s) (backtrack (o_fix o) B (s_uo s) (s_u s)) in
  bind (t_update s (s_u s)) (fun s =>
  Ret (State (s_w s) (s_uo s) (s_u s) (s_err s) (s_iters s) (s_hist s) (s_evals s) (s_u s :: s_iterates s)))).

(** Convergence.cpp:46-56 *)
Definition t_converged (o : options T) (s : state) : run bool state :=
  if nltb (s_err s) (o_tol o) then Ret true
  else match check with
       | None => Ret false
       | Some c => match c (s_w s) (s_uo s) (s_u s) (s_err s) (s_iters s) with None => Throw s | Some b => Ret b end
       end.

(** MasterSolver.cpp:162-171 *)
Definition t_stepping (o : options T) (s : state) : run (state * bool) state :=
  let s := State (s_w s) (s_uo s) (s_u s) (s_err s) (s_iters s) (s_hist s ++ [s_err s]) (s_evals s) (s_iterates s) in
  if Nat.ltb (o_maxiters o) (s_iters s) then Ret (s, false)
  else bind (t_converged o s) (fun c =>
       Ret (State (s_w s) (s_u s) (s_u s) (s_err s) (s_iters s) (s_hist s) (s_evals s) (s_iterates s), negb c)).

(** MasterSolver.cpp:119 *)
Fixpoint t_loop (fuel : nat) (B : bounds T) (o : options T) (s : state) : option (run state state) :=
  match fuel with
  | 0 => None
  | S fuel' =>
      match bind (t_step B o s) (t_stepping o) with
      | Throw s => Some (Throw s)
      | Ret (s, true) => t_loop fuel' B o s
      | Ret (s, false) => Some (Ret s)
      end
  end.

(** MasterSolver.cpp:115-122 *)
Definition t_solve (fuel : nat) (B : bounds T) (o : options T) (w : W) (hist : list T) (u : uvec T) : option (run (result T * state) state) :=
  match t_initialize B w hist u with
  | Throw s => Some (Throw s)
  | Ret s =>
      match t_loop fuel B o s with
      | None => None
      | Some (Throw s) => Some (Throw s)
      | Some (Ret s) => Some (Ret (Result (Nat.leb (s_iters s) (o_maxiters o)) (s_iters s) nzero, s))
      end
  end.

(** Solver.cpp:345-354 after updateMasterProblem, for a problem with the dimensions d and the bounds B: the outcome, the State of
    the caller, and the members of the solver (the MasterState, the world, the history).  [fin] is
    MasterSolver::finalize (184-199). *)
Definition t_call (part : partition_impl) (fin : mstate T -> W -> uvec T -> mstate T) (d : dims) (fuel : nat) (B : bounds T) (o : options T)
    (mem : mstate T * W * list T) (st : ustate T) : option (option (result T) * ustate T * (mstate T * W * list T)) :=
  let '(m, w, hist) := mem in
  let m := to_master m st in                                                          (* 348 *)
  match t_solve fuel B o w hist (UVec (t_x m) (t_p m) (t_w m)) with                    (* 349 *)
  | None => None
  | Some (Throw s) => Some (None, st, (MState (ux (s_u s)) (up (s_u s)) (uw (s_u s)) (t_s m) (t_js m) (t_ju m) (t_jlu m) (t_juu m) (t_jb m) (t_jn m), s_w s, s_hist s))
  | Some (Ret (r, s)) =>
      let m := fin m (s_w s) (s_u s) in
      Some (Some r, of_master part d m st, (m, s_w s, s_hist s))                       (* 350-351 *)
  end.
End Throw.
