(** Model of the iterations of MasterSolver (Optima/MasterSolver.cpp), NewtonStep,
    TransformStep, BacktrackSearch, ErrorControl, Convergence and LineSearch, on the
    arithmetic of Num.v.

    Everything these classes do not compute themselves is kept in a value of type [W] (the
    "world"): the state of ResidualFunction and of the linear solver, and whatever state the
    user's functions have.  The calls into it are parameters:
      - [fupdate w u]      F.update(u) evaluates f, h, v at u and assembles the residual;
      - [ferror w u]       the error that E.update(u, F) computes (ResidualErrors.cpp:60-107);
      - [newton w]         linearsolver.decompose/solve: the Newton direction;
      - [phi]              the user's transformation, None when not given: new world, outcome, new x;
      - [check]            the user's convergence check (gets uo, u, the error and the number of iterations).
    Not modelled: exceptions thrown by user functions, the output table (see Output_model),
    timing, the assertions (Release build). *)
From Coq Require Import List Arith Bool ZArith.
From Verif Require Import Num Minimize_model.
Import ListNotations.

Section Vectors.
Context {T : Type} {N : Num T}.

(** MasterVector.hpp:26-60: u = (x, p, w) *)
Record uvec := UVec { ux : list T; up : list T; uw : list T }.

(** coefficientwise operations of Eigen on vectors of the same size *)
Definition map2 (f : T -> T -> T) (a b : list T) : list T := map (fun c => f (fst c) (snd c)) (combine a b).

(** min(max(v, lower), upper): MasterSolver.cpp:146-147, TransformStep.cpp:61,
    BacktrackSearch.cpp:69-70, 97-98 *)
Definition clampv (v lower upper : list T) : list T := map2 nmin (map2 nmax v lower) upper.

(** MasterVector.hpp: uo*(1 - b) + b*u (BacktrackSearch.cpp:95, LineSearch.cpp:66, 80) *)
Definition mix1 (b o v : T) : T := nadd (nmul (nsub none1 b) o) (nmul b v).
Definition mix (b : T) (uo u : uvec) : uvec :=
  UVec (map2 (mix1 b) (ux uo) (ux u)) (map2 (mix1 b) (up uo) (up u)) (map2 (mix1 b) (uw uo) (uw u)).

(** the bounds of the problem *)
Record bounds := Bounds { xlo : list T; xhi : list T; plo : list T; phi_ : list T }.

Definition clampu (B : bounds) (u : uvec) : uvec :=
  UVec (clampv (ux u) (xlo B) (xhi B)) (clampv (up u) (plo B) (phi_ B)) (uw u).

(** BacktrackSearch.cpp:75-83, 85-93: one iteration of the loops over x and p.
    [o], [v] are the old and new value, [lo], [hi] the bounds. *)
Definition beta_step (beta : T) (c : (T * T) * (T * T)) : T :=
  let '((o, v), (lo, hi)) := c in
  if neqb v o then beta
  else if ngtb v hi && nltb o hi then nmin beta (ndiv (nsub hi o) (nsub v o))
  else if nltb v lo && ngtb o lo then nmin beta (ndiv (nsub lo o) (nsub v o))
  else beta.
Definition beta_loop (beta : T) (o v lo hi : list T) : T :=
  fold_left beta_step (combine (combine o v) (combine lo hi)) beta.
Definition betamin (B : bounds) (uo u : uvec) : T :=
  beta_loop (beta_loop none1 (ux uo) (ux u) (xlo B) (xhi B)) (up uo) (up u) (plo B) (phi_ B).

(** BacktrackSearch.cpp:55-99.  [fix] is options.apply_min_max_fix_and_accept. *)
Definition backtrack (fix_ : bool) (B : bounds) (uo u : uvec) : uvec :=
  if fix_ then clampu B u
  else clampu B (mix (betamin B uo u) uo u).

(** LineSearch.cpp:57-98 with a residual error that is a function of the point.  Returns the
    new point and the error recorded in E.  [None]: out of fuel. *)
Definition linesearch (fuel : nat) (err : uvec -> T) (tol : T) (maxiters : Z) (uo u : uvec) : option (uvec * T) :=
  match minimizeBrent (fun alpha => err (mix alpha uo u)) fuel nzero none1 tol maxiters with
  | None => None
  | Some (alphamin, _) => let u' := mix alphamin uo u in Some (u', err u')
  end.
End Vectors.
Arguments uvec : clear implicits.
Arguments bounds : clear implicits.

Section Loop.
Context {T : Type} {N : Num T}.
Variable W : Type.
Variable fupdate : W -> uvec T -> W.
Variable ferror : W -> uvec T -> T.
Variable newton : W -> W * uvec T.
Variable phi : option (W -> list T -> list T -> W * bool * list T).
Variable check : option (W -> uvec T -> uvec T -> T -> nat -> bool).

(** The options used by the loop: Options.hpp:82, ConvergenceOptions.hpp:28,
    BacktrackSearchOptions.hpp:33 *)
Record options := Options { o_maxiters : nat; o_tol : T; o_fix : bool }.

(** The mutable state of MasterSolver::Impl.  [s_evals] (the points at which F.update was
    called) and [s_iterates] (the values of u after initialize and after every step) are
    recorded for the specifications only, latest first. *)
Record state := State { s_w : W; s_uo : uvec T; s_u : uvec T; s_err : T; s_iters : nat; s_hist : list T;
                        s_evals : list (uvec T); s_iterates : list (uvec T) }.

(** F.update(u); E.update(u, F) *)
Definition update (s : state) (u : uvec T) : state :=
  let w := fupdate (s_w s) u in
  State w (s_uo s) u (ferror w u) (s_iters s) (s_hist s) (u :: s_evals s) (s_iterates s).
Definition with_u (s : state) (w : W) (u : uvec T) : state :=
  State w (s_uo s) u (s_err s) (s_iters s) (s_hist s) (s_evals s) (s_iterates s).

(** MasterSolver.cpp:141-160 (the initialize calls of the components are part of the world
    that is passed in); Convergence.cpp:40-42 keeps the history *)
Definition initialize (B : bounds T) (w : W) (hist : list T) (u : uvec T) : state :=
  let u := clampu B u in
  let s := update (State w u u nzero 0 hist [] []) u in
  State (s_w s) u u (s_err s) 0 (s_hist s) (s_evals s) [u].

(** NewtonStep.cpp:54-65 *)
Definition newton_apply (s : state) : state :=
  let '(w, du) := newton (s_w s) in
  with_u s w (UVec (map2 nadd (ux (s_uo s)) (ux du)) (map2 nadd (up (s_uo s)) (up du)) (map2 nadd (uw (s_uo s)) (uw du))).

(** TransformStep.cpp:44-77 *)
Definition transform (B : bounds T) (s : state) : state * bool :=
  match phi with
  | None => (s, false)                                                            (* 46-47 *)
  | Some ph =>
      let ubkp := s_u s in                                                        (* 49 *)
      let '(w, outcome, x) := ph (s_w s) (ux (s_uo s)) (ux (s_u s)) in            (* 51 *)
      if negb outcome then (update (with_u s w ubkp) ubkp, false)                 (* 53-58 *)
      else
        let u := UVec (clampv x (xlo B) (xhi B)) (up ubkp) (uw ubkp) in           (* 60 *)
        let s1 := update (with_u s w u) u in                                      (* 64-65 *)
        if ngtb (s_err s1) (s_err s) then (update (with_u s1 (s_w s1) ubkp) ubkp, false) (* 69-74 *)
        else (s1, true)
  end.

(** MasterSolver.cpp:173-182, ErrorControl.cpp:51-61 (the line search is commented out there) *)
Definition step (B : bounds T) (o : options) (s : state) : state :=
  let s := State (s_w s) (s_uo s) (s_u s) (s_err s) (S (s_iters s)) (s_hist s) (s_evals s) (s_iterates s) in
  let s := newton_apply s in
  let '(s, _) := transform B s in
  let s := with_u s (s_w s) (backtrack (o_fix o) B (s_uo s) (s_u s)) in
  let s := update s (s_u s) in
  State (s_w s) (s_uo s) (s_u s) (s_err s) (s_iters s) (s_hist s) (s_evals s) (s_u s :: s_iterates s).

(** Convergence.cpp:46-56 after the push_back of 43-44 *)
Definition converged (o : options) (s : state) : bool :=
  if nltb (s_err s) (o_tol o) then true
  else match check with None => false | Some c => c (s_w s) (s_uo s) (s_u s) (s_err s) (s_iters s) end.

(** MasterSolver.cpp:162-171: true is CONTINUE *)
Definition stepping (o : options) (s : state) : state * bool :=
  let s := State (s_w s) (s_uo s) (s_u s) (s_err s) (s_iters s) (s_hist s ++ [s_err s]) (s_evals s) (s_iterates s) in
  if Nat.ltb (o_maxiters o) (s_iters s) then (s, false)
  else
    let c := converged o s in
    (State (s_w s) (s_u s) (s_u s) (s_err s) (s_iters s) (s_hist s) (s_evals s) (s_iterates s), negb c).

(** MasterSolver.cpp:119  do step(u); while(stepping(u)) *)
Fixpoint loop (fuel : nat) (B : bounds T) (o : options) (s : state) : option state :=
  match fuel with
  | 0 => None
  | S fuel' => let '(s, continue) := stepping o (step B o s) in if continue then loop fuel' B o s else Some s
  end.

(** Result.hpp:33-42: succeeded, iterations, error *)
Record result := Result { r_succeeded : bool; r_iterations : nat; r_error : T }.

(** MasterSolver.cpp:115-122, finalize 184-186: result.error keeps its initial value 0 *)
Definition solve (fuel : nat) (B : bounds T) (o : options) (w : W) (hist : list T) (u : uvec T) : option (result * state) :=
  match loop fuel B o (initialize B w hist u) with
  | None => None
  | Some s => Some (Result (Nat.leb (s_iters s) (o_maxiters o)) (s_iters s) nzero, s)
  end.

(** MasterSolver.cpp:99-102 and 187: the point in the line of the output table that finalize
    writes *)
Definition shown_last (s : state) : uvec T := s_uo s.

(** Convergence.cpp:58-67 rate *)
Definition rate (hist : list T) : T :=
  let n := length hist in
  if Nat.ltb n 3 then nzero
  else let E k := nth (n - k) hist nzero in ndiv (nsub (E 2) (E 1)) (nsub (E 3) (E 2)).
End Loop.
Arguments options : clear implicits.
Arguments state : clear implicits.
Arguments result : clear implicits.
Arguments State {T W}. Arguments s_w {T W}. Arguments s_uo {T W}. Arguments s_u {T W}. Arguments s_err {T W}.
Arguments shown_last {T W}. Arguments s_iters {T W}. Arguments s_hist {T W}. Arguments s_evals {T W}. Arguments s_iterates {T W}.

(** ** The success flags of the function evaluations.
    ResidualFunction.cpp:143-160 updateFunctionEvalsAux: f, h and v first set their flag to
    true (ObjectiveFunction.cpp:58, ConstraintFunction.cpp:56) and then run the user's
    function, which may clear it; h is called only if nz > 0 and v only if np > 0.  The flags
    of fres, hres, vres start as true (ConstraintFunction.hpp:62) and survive initialize
    (ResidualFunction.cpp:98-100 resize leaves them). *)
Record flags := Flags { fl_f : bool; fl_h : bool; fl_v : bool }.
Definition eval_flags (nz np : nat) (fok hok vok : bool) (old : flags) : flags :=
  Flags fok (if Nat.eqb nz 0 then fl_h old else hok) (if Nat.eqb np 0 then fl_v old else vok).
Definition all_ok (fl : flags) : bool := fl_f fl && fl_h fl && fl_v fl.
