(** Specification vocabulary for C75 and C76: what a successful calculation returns. *)
From Coq Require Import List Arith Bool Reals.
From Verif Require Import Num Wrapper_model Wrapper_spec.
Import ListNotations.
Local Open Scope R_scope.

(** First-order optimality up to tol of a variable with value x, bounds lo, hi and
    derivative s of the Lagrange function *)
Definition near_stationary (tol s x : R) (lo hi : xreal) : Prop :=
  Rabs s < tol \/ (lo = XF x /\ s > 0) \/ (hi = XF x /\ s < 0).
Definition at_bound (x : R) (lo hi : xreal) : Prop := lo = XF x \/ hi = XF x.

Section Master.
Variables (M : master R xreal) (x p : list R).
(** Entry (l, j) of the derivatives with respect to x of all constraints (the linear ones
    first), likewise for p, and the magnitude of the terms of constraint l *)
Definition cWx (l j : nat) : R :=
  if l <? ms_ny M then mget (ms_Ax M) l j else c_ddx (value (ms_h M) x p (ms_c M)) (l - ms_ny M) j.
Definition cWp (l k : nat) : R :=
  if l <? ms_ny M then mget (ms_Ap M) l k else c_ddp (value (ms_h M) x p (ms_c M)) (l - ms_ny M) k.
Definition ctarget (l : nat) : R :=
  if l <? ms_ny M then at_ (ms_b M) l else c_val (value (ms_h M) x p (ms_c M)) (l - ms_ny M).
(** What is missing for constraint l to hold *)
Definition cleft (l : nat) : R :=
  if l <? ms_ny M then at_ (ms_b M) l - lin (ms_nx M) (ms_np M) (mget (ms_Ax M)) (mget (ms_Ap M)) x p l
  else - c_val (value (ms_h M) x p (ms_c M)) (l - ms_ny M).
Definition cmag (l : nat) : R :=
  Rabs (ctarget l) + sum (ms_nx M) (fun j => Rabs (cWx l j) * Rabs (at_ x j)) + sum (ms_np M) (fun k => Rabs (cWp l k) * Rabs (at_ p k)).
(** The derivative of the Lagrange function with respect to x_j *)
Definition cgrad (w : list R) (j : nat) : R :=
  o_fx (ovalue (ms_f M) x p (ms_c M)) j
      + sum (ms_ny M) (fun i => mget (ms_Ax M) i j * at_ w i)
      + sum (ms_nz M) (fun i => c_ddx (value (ms_h M) x p (ms_c M)) i j * at_ w (ms_ny M + i)).
(** V is the inverse of the columns jb of the derivatives *)
Definition inverts (jb : list nat) (V : nat -> nat -> R) : Prop :=
  forall i k, (i < length jb)%nat -> (k < length jb)%nat ->
    sum (ms_ny M + ms_nz M) (fun l => V i l * cWx l (nth k jb 0%nat)) = if i =? k then 1 else 0.
(** The level of round-off for the combination of the constraints with row i of V *)
Definition row_room (V : nat -> nat -> R) (i : nat) : R :=
  / 2 ^ 52 * sum (ms_ny M + ms_nz M) (fun l => Rabs (V i l) * cmag l).
(** The violation of constraint l that an error below tol leaves room for: 2^-52 times the
    magnitudes is the level below which the solver treats differences as round-off. *)
Definition allowed (tol : R) (jb : list nat) (V : nat -> nat -> R) (l : nat) : R :=
  sum (length jb) (fun i => Rabs (cWx l (nth i jb 0%nat)) *
    (tol + row_room V i)).

(** The priority weights of the variables for the choice of the basic ones (ResidualFunction.cpp:186-187) *)
Definition weights_at (wt : nat -> R) : Prop := forall j, (j < ms_nx M)%nat ->
  (at_bound (at_ x j) (bd (ms_xlower M) j) (bd (ms_xupper M) j) -> wt j = -1) /\
  (~ at_bound (at_ x j) (bd (ms_xlower M) j) (bd (ms_xupper M) j) -> wt j = Rabs (at_ x j)).

(** An approximate KKT point of the master problem.  The variables jb ("basic") may be on a
    bound whatever the sign of the derivative (C45); the constraints are controlled when
    there are as many basic variables as constraints (C46). *)
Definition master_near (tol : R) (jb : list nat) (w : list R) : Prop :=
  within (ms_xlower M) (ms_xupper M) x /\ within (ms_plower M) (ms_pupper M) p /\
  (forall j, (j < ms_nx M)%nat ->
     near_stationary tol (o_fx (ovalue (ms_f M) x p (ms_c M)) j
      + sum (ms_ny M) (fun i => mget (ms_Ax M) i j * at_ w i)
      + sum (ms_nz M) (fun i => c_ddx (value (ms_h M) x p (ms_c M)) i j * at_ w (ms_ny M + i)))
      (at_ x j) (bd (ms_xlower M) j) (bd (ms_xupper M) j)
     \/ (In j jb /\ at_bound (at_ x j) (bd (ms_xlower M) j) (bd (ms_xupper M) j))) /\
  (forall k, (k < ms_np M)%nat -> Rabs (c_val (value (ms_v M) x p (ms_c M)) k) < tol) /\
  (NoDup jb /\ forall j, In j jb -> (j < ms_nx M)%nat) /\
  (length jb = (ms_ny M + ms_nz M)%nat -> exists V, inverts jb V /\
     forall l, (l < ms_ny M + ms_nz M)%nat -> Rabs (cleft l) <= allowed tol jb V l).
End Master.

(** An approximate KKT point x, p, ye, yg, ze, zg of the user's problem with slacks xbg, xhg;
    [room l] is the violation allowed for constraint l in the order be, bg, he, hg. *)
Definition user_near (P : problem R xreal) (tol : R) (jb : list nat) (x xbg xhg p ye yg ze zg : list R) : Prop :=
  let d := p_dims P in
  within (p_xlower P) (p_xupper P) x /\ within (p_plower P) (p_pupper P) p /\
  (forall j, (j < d_x d)%nat ->
    near_stationary tol (o_fx (ovalue (uf P) x p (p_c P)) j
      + sum (d_be d) (fun i => p_Aex P i j * at_ ye i) + sum (d_bg d) (fun i => p_Agx P i j * at_ yg i)
      + sum (d_he d) (fun i => c_ddx (value (uhe P) x p (p_c P)) i j * at_ ze i)
      + sum (d_hg d) (fun i => c_ddx (value (uhg P) x p (p_c P)) i j * at_ zg i))
      (at_ x j) (bd (p_xlower P) j) (bd (p_xupper P) j)
    \/ (In j jb /\ at_bound (at_ x j) (bd (p_xlower P) j) (bd (p_xupper P) j))) /\
  (forall i, (i < d_bg d)%nat -> at_ xbg i <= 0 /\
     (Rabs (at_ yg i) < tol \/ (at_ xbg i = 0 /\ (at_ yg i < 0 \/ In (d_x d + i)%nat jb)))) /\
  (forall i, (i < d_hg d)%nat -> at_ xhg i <= 0 /\
     (Rabs (at_ zg i) < tol \/ (at_ xhg i = 0 /\ (at_ zg i < 0 \/ In (d_x d + d_bg d + i)%nat jb)))) /\
  (forall k, (k < d_p d)%nat -> Rabs (c_val (value (uv P) x p (p_c P)) k) < tol).
Definition user_constraints_near (P : problem R xreal) (room : nat -> R) (x xbg xhg p : list R) : Prop :=
  let d := p_dims P in
  (forall i, (i < d_be d)%nat -> Rabs (lin (d_x d) (d_p d) (p_Aex P) (p_Aep P) x p i - at_ (p_be P) i) <= room i) /\
  (forall i, (i < d_bg d)%nat -> Rabs (lin (d_x d) (d_p d) (p_Agx P) (p_Agp P) x p i + at_ xbg i - at_ (p_bg P) i) <= room (d_be d + i)%nat /\
     lin (d_x d) (d_p d) (p_Agx P) (p_Agp P) x p i >= at_ (p_bg P) i - room (d_be d + i)%nat) /\
  (forall i, (i < d_he d)%nat -> Rabs (c_val (value (uhe P) x p (p_c P)) i) <= room (d_be d + d_bg d + i)%nat) /\
  (forall i, (i < d_hg d)%nat -> Rabs (c_val (value (uhg P) x p (p_c P)) i + at_ xhg i) <= room (d_be d + d_bg d + d_he d + i)%nat /\
     c_val (value (uhg P) x p (p_c P)) i >= - room (d_be d + d_bg d + d_he d + i)%nat).

(** The gradients with respect to x of the equality constraints - linear and nonlinear - at (x, p)
    are linearly independent. *)
Definition independent_equalities (P : problem R xreal) (x p : list R) : Prop :=
  let d := p_dims P in
  forall a b : nat -> R,
  (forall j, (j < d_x d)%nat -> sum (d_be d) (fun i => a i * p_Aex P i j) + sum (d_he d) (fun i => b i * c_ddx (value (uhe P) x p (p_c P)) i j) = 0) ->
  (forall i, (i < d_be d)%nat -> a i = 0) /\ (forall i, (i < d_he d)%nat -> b i = 0).

(** Linear independence of the gradients of all active constraints, bounds included (LICQ), with the
    inequality constraints whose slack is zero as the active ones: no nontrivial combination
    of constraint gradients without inactive ones vanishes on the variables off their bounds. *)
Definition licq (P : problem R xreal) (x xbg xhg p : list R) : Prop :=
  let d := p_dims P in
  forall a b c e : nat -> R,
  (forall i, (i < d_bg d)%nat -> at_ xbg i <> 0 -> b i = 0) -> (forall i, (i < d_hg d)%nat -> at_ xhg i <> 0 -> e i = 0) ->
  (forall j, (j < d_x d)%nat -> ~ at_bound (at_ x j) (bd (p_xlower P) j) (bd (p_xupper P) j) ->
     sum (d_be d) (fun i => a i * p_Aex P i j) + sum (d_bg d) (fun i => b i * p_Agx P i j)
     + sum (d_he d) (fun i => c i * c_ddx (value (uhe P) x p (p_c P)) i j)
     + sum (d_hg d) (fun i => e i * c_ddx (value (uhg P) x p (p_c P)) i j) = 0) ->
  (forall i, (i < d_be d)%nat -> a i = 0) /\ (forall i, (i < d_bg d)%nat -> b i = 0) /\
  (forall i, (i < d_he d)%nat -> c i = 0) /\ (forall i, (i < d_hg d)%nat -> e i = 0).
