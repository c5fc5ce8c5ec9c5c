(** Specification vocabulary for C86: the derivatives of a solution with respect to a parameter. *)
From Coq Require Import List Arith Bool Reals.
From Coquelicot Require Import Coquelicot.
From Verif Require Import Num Wrapper_model Wrapper_spec Status_spec.
Import ListNotations.
Local Open Scope R_scope.

(** A direction in the space of variables, parameters p, slacks and multipliers *)
Record udir := UDir { dx : nat -> R; dp : nat -> R; dbg : nat -> R; dhg : nat -> R;
  dye : nat -> R; dyg : nat -> R; dze : nat -> R; dzg : nat -> R }.
(** the columns k of the matrices in a Sensitivity object *)
Definition ent (A : list (list R)) (i k : nat) : R := nth k (nth i A []) 0.
Definition sens_dir (S : sens R) (k : nat) : udir :=
  UDir (fun i => ent (e_xc S) i k) (fun i => ent (e_pc S) i k) (fun i => ent (e_xbgc S) i k) (fun i => ent (e_xhgc S) i k)
       (fun i => ent (e_yec S) i k) (fun i => ent (e_ygc S) i k) (fun i => ent (e_zec S) i k) (fun i => ent (e_zgc S) i k).
(** the matrices have the rows of the problem's dimensions and n columns *)
Definition shape (r n : nat) (A : list (list R)) : Prop := length A = r /\ List.Forall (fun row => length row = n) A.
Definition sens_shaped (d : dims) (n : nat) (S : sens R) : Prop :=
  shape (d_x d) n (e_xc S) /\ shape (d_p d) n (e_pc S) /\ shape (d_bg d) n (e_xbgc S) /\ shape (d_hg d) n (e_xhgc S) /\
  shape (d_be d) n (e_yec S) /\ shape (d_bg d) n (e_ygc S) /\ shape (d_he d) n (e_zec S) /\ shape (d_hg d) n (e_zgc S) /\ shape (d_x d) n (e_sc S).
(** two directions agree in the dimensions of a problem *)
Definition same_dir (d : dims) (s t : udir) : Prop :=
  (forall i, (i < d_x d)%nat -> dx s i = dx t i) /\ (forall i, (i < d_p d)%nat -> dp s i = dp t i) /\
  (forall i, (i < d_bg d)%nat -> dbg s i = dbg t i) /\ (forall i, (i < d_hg d)%nat -> dhg s i = dhg t i) /\
  (forall i, (i < d_be d)%nat -> dye s i = dye t i) /\ (forall i, (i < d_bg d)%nat -> dyg s i = dyg t i) /\
  (forall i, (i < d_he d)%nat -> dze s i = dze t i) /\ (forall i, (i < d_hg d)%nat -> dzg s i = dzg t i).
Definition zero_dir : udir := UDir (fun _ => 0) (fun _ => 0) (fun _ => 0) (fun _ => 0) (fun _ => 0) (fun _ => 0) (fun _ => 0) (fun _ => 0).

(** A point: variables, slacks, parameters p and multipliers *)
Record upoint := UPoint { ptx : list R; ptbg : list R; pthg : list R; ptp : list R;
  ptye : list R; ptyg : list R; ptze : list R; ptzg : list R }.

Section At.
Variables (P : problem R xreal) (a : upoint).
Let d := p_dims P.
(** Values and derivatives of the user's functions at the point *)
Definition at_f := ovalue (uf P) (ptx a) (ptp a) (p_c P).
Definition at_he := value (uhe P) (ptx a) (ptp a) (p_c P).
Definition at_hg := value (uhg P) (ptx a) (ptp a) (p_c P).
Definition at_v := value (uv P) (ptx a) (ptp a) (p_c P).

(** Variable j is held by a bound: it is on one and the Lagrange function decreases across it.  Inequality
    constraint i is held when it has no slack and a multiplier of the right sign. *)
Definition held (j : nat) : Prop :=
  let s := user_stability P (ptx a) (ptp a) (ptye a) (ptyg a) (ptze a) (ptzg a) j in
  (bd (p_xlower P) j = XF (at_ (ptx a) j) /\ 0 < s) \/ (bd (p_xupper P) j = XF (at_ (ptx a) j) /\ s < 0).
Definition bg_held (i : nat) : Prop := at_ (ptbg a) i = 0 /\ at_ (ptyg a) i < 0.
Definition hg_held (i : nat) : Prop := at_ (pthg a) i = 0 /\ at_ (ptzg a) i < 0.

(** The optimality conditions differentiated at the point, with right-hand sides: the
    derivative of the Lagrange function with respect to the variables not held (second derivatives of
    the constraints left out), v, the linear and nonlinear constraints with their slacks;
    what is held stays, the multipliers of inequality constraints not held stay. *)
Definition tangent_eqs (rx rv rbe rbg rhe rhg : nat -> R) (t : udir) : Prop :=
  (forall j, (j < d_x d)%nat -> held j -> dx t j = 0) /\
  (forall j, (j < d_x d)%nat -> ~ held j ->
     sum (d_x d) (fun i => o_fxx at_f j i * dx t i) + sum (d_p d) (fun k => o_fxp at_f j k * dp t k)
     + sum (d_be d) (fun i => p_Aex P i j * dye t i) + sum (d_bg d) (fun i => p_Agx P i j * dyg t i)
     + sum (d_he d) (fun i => c_ddx at_he i j * dze t i) + sum (d_hg d) (fun i => c_ddx at_hg i j * dzg t i) = rx j) /\
  (forall l, (l < d_p d)%nat -> sum (d_x d) (fun i => c_ddx at_v l i * dx t i) + sum (d_p d) (fun k => c_ddp at_v l k * dp t k) = rv l) /\
  (forall i, (i < d_be d)%nat -> sum (d_x d) (fun j => p_Aex P i j * dx t j) + sum (d_p d) (fun k => p_Aep P i k * dp t k) = rbe i) /\
  (forall i, (i < d_bg d)%nat -> sum (d_x d) (fun j => p_Agx P i j * dx t j) + sum (d_p d) (fun k => p_Agp P i k * dp t k) + dbg t i = rbg i) /\
  (forall i, (i < d_he d)%nat -> sum (d_x d) (fun j => c_ddx at_he i j * dx t j) + sum (d_p d) (fun k => c_ddp at_he i k * dp t k) = rhe i) /\
  (forall i, (i < d_hg d)%nat -> sum (d_x d) (fun j => c_ddx at_hg i j * dx t j) + sum (d_p d) (fun k => c_ddp at_hg i k * dp t k) + dhg t i = rhg i) /\
  (forall i, (i < d_bg d)%nat -> (bg_held i -> dbg t i = 0) /\ (~ bg_held i -> dyg t i = 0)) /\
  (forall i, (i < d_hg d)%nat -> (hg_held i -> dhg t i = 0) /\ (~ hg_held i -> dzg t i = 0)).

(** These equations have at most one solution. *)
Definition unique_tangent : Prop :=
  forall t, tangent_eqs (fun _ => 0) (fun _ => 0) (fun _ => 0) (fun _ => 0) (fun _ => 0) (fun _ => 0) t -> same_dir d t zero_dir.
(** The right-hand sides for parameter k *)
Definition c_tangent (k : nat) (t : udir) : Prop :=
  tangent_eqs (fun j => - o_fxc at_f j k) (fun l => - c_ddc at_v l k) (fun i => p_bec P i k) (fun i => p_bgc P i k)
    (fun i => - c_ddc at_he i k) (fun i => - c_ddc at_hg i k) t.
End At.

(** ** Paths *)

(** Component i of a vector that depends on t has derivative dz i at t = 0. *)
Definition moves (n : nat) (z : R -> list R) (dz : nat -> R) : Prop := forall i, (i < n)%nat -> is_derive (fun t => at_ (z t) i) 0 (dz i).
(** Parameter number k increased by t *)
Definition shifted (c : list R) (k : nat) (t : R) : list R := firstn k c ++ (at_ c k + t) :: skipn (S k) c.
(** The problem with parameter k increased by t and right-hand sides be and bg *)
Definition problem_at (P : problem R xreal) (k : nat) (be bg : list R) (t : R) : problem R xreal :=
  Problem (p_dims P) (p_r P) (p_f P) (p_he P) (p_hg P) (p_v P) (p_Aex P) (p_Aep P) (p_Agx P) (p_Agp P) be bg
    (p_xlower P) (p_xupper P) (p_plower P) (p_pupper P) (shifted (p_c P) k t) (p_bec P) (p_bgc P).

(** A function of x, p and c, with n variables, has derivatives gx, gp and gc at a: the chain rule
    holds along every differentiable curve in parameter k. *)
Definition derivatives_along (P : problem R xreal) (k : nat) (a : upoint) (g : list R -> list R -> list R -> R) (gx gp : nat -> R) (gc : R) : Prop :=
  let d := p_dims P in
  forall x p vx vp, x 0 = ptx a -> p 0 = ptp a -> (forall t, length (x t) = d_x d) -> (forall t, length (p t) = d_p d) ->
  moves (d_x d) x vx -> moves (d_p d) p vp ->
  is_derive (fun t => g (x t) (p t) (shifted (p_c P) k t)) 0 (sum (d_x d) (fun i => gx i * vx i) + sum (d_p d) (fun l => gp l * vp l) + gc).

(** The derivatives that the user's functions return at a are right: of the gradient of f, of v,
    of he and hg. *)
Definition right_derivatives (P : problem R xreal) (k : nat) (a : upoint) : Prop :=
  let d := p_dims P in
  (forall j, (j < d_x d)%nat -> derivatives_along P k a (fun x p c => o_fx (ovalue (uf P) x p c) j) (o_fxx (at_f P a) j) (o_fxp (at_f P a) j) (o_fxc (at_f P a) j k)) /\
  (forall l, (l < d_p d)%nat -> derivatives_along P k a (fun x p c => c_val (value (uv P) x p c) l) (c_ddx (at_v P a) l) (c_ddp (at_v P a) l) (c_ddc (at_v P a) l k)) /\
  (forall i, (i < d_he d)%nat -> derivatives_along P k a (fun x p c => c_val (value (uhe P) x p c) i) (c_ddx (at_he P a) i) (c_ddp (at_he P a) i) (c_ddc (at_he P a) i k)) /\
  (forall i, (i < d_hg d)%nat -> derivatives_along P k a (fun x p c => c_val (value (uhg P) x p c) i) (c_ddx (at_hg P a) i) (c_ddp (at_hg P a) i) (c_ddc (at_hg P a) i k)).
(** Along every curve the Jacobian entries of he and hg have derivative zero at a, for instance because these
    constraints are linear. *)
Definition steady_jacobians (P : problem R xreal) (k : nat) (a : upoint) : Prop :=
  let d := p_dims P in
  (forall i j, (i < d_he d)%nat -> (j < d_x d)%nat -> derivatives_along P k a (fun x p c => c_ddx (value (uhe P) x p c) i j) (fun _ => 0) (fun _ => 0) 0) /\
  (forall i j, (i < d_hg d)%nat -> (j < d_x d)%nat -> derivatives_along P k a (fun x p c => c_ddx (value (uhg P) x p c) i j) (fun _ => 0) (fun _ => 0) 0).

(** b solves problem Q as well as a solves problem P, with the same variables and constraints held:
    what is held stays where it is, and the residuals of all other optimality conditions are the
    same (all zero if a is an exact solution). *)
Definition as_solved (P Q : problem R xreal) (a b : upoint) : Prop :=
  let d := p_dims P in
  (forall j, (j < d_x d)%nat -> held P a j -> at_ (ptx b) j = at_ (ptx a) j) /\
  (forall j, (j < d_x d)%nat -> ~ held P a j ->
     user_stability Q (ptx b) (ptp b) (ptye b) (ptyg b) (ptze b) (ptzg b) j = user_stability P (ptx a) (ptp a) (ptye a) (ptyg a) (ptze a) (ptzg a) j) /\
  (forall l, (l < d_p d)%nat -> c_val (at_v Q b) l = c_val (at_v P a) l) /\
  (forall i, (i < d_be d)%nat ->
     lin (d_x d) (d_p d) (p_Aex Q) (p_Aep Q) (ptx b) (ptp b) i - at_ (p_be Q) i = lin (d_x d) (d_p d) (p_Aex P) (p_Aep P) (ptx a) (ptp a) i - at_ (p_be P) i) /\
  (forall i, (i < d_bg d)%nat ->
     lin (d_x d) (d_p d) (p_Agx Q) (p_Agp Q) (ptx b) (ptp b) i + at_ (ptbg b) i - at_ (p_bg Q) i
     = lin (d_x d) (d_p d) (p_Agx P) (p_Agp P) (ptx a) (ptp a) i + at_ (ptbg a) i - at_ (p_bg P) i) /\
  (forall i, (i < d_he d)%nat -> c_val (at_he Q b) i = c_val (at_he P a) i) /\
  (forall i, (i < d_hg d)%nat -> c_val (at_hg Q b) i + at_ (pthg b) i = c_val (at_hg P a) i + at_ (pthg a) i) /\
  (forall i, (i < d_bg d)%nat -> (bg_held a i -> at_ (ptbg b) i = at_ (ptbg a) i) /\ (~ bg_held a i -> at_ (ptyg b) i = at_ (ptyg a) i)) /\
  (forall i, (i < d_hg d)%nat -> (hg_held a i -> at_ (pthg b) i = at_ (pthg a) i) /\ (~ hg_held a i -> at_ (ptzg b) i = at_ (ptzg a) i)).

(** A differentiable path of solutions through a: at t the parameter k has increased by t, be
    and bg move as their derivatives bec and bgc say, and the point solves the problem as well as a does. *)
Definition solution_path (P : problem R xreal) (k : nat) (a : upoint) (path : R -> upoint) (be bg : R -> list R) (t : udir) : Prop :=
  let d := p_dims P in
  path 0 = a /\ be 0 = p_be P /\ bg 0 = p_bg P /\
  (forall s, length (ptx (path s)) = d_x d) /\ (forall s, length (ptp (path s)) = d_p d) /\
  moves (d_be d) be (fun i => p_bec P i k) /\ moves (d_bg d) bg (fun i => p_bgc P i k) /\
  locally 0 (fun s => as_solved P (problem_at P k (be s) (bg s) s) a (path s)) /\
  moves (d_x d) (fun s => ptx (path s)) (dx t) /\ moves (d_p d) (fun s => ptp (path s)) (dp t) /\
  moves (d_bg d) (fun s => ptbg (path s)) (dbg t) /\ moves (d_hg d) (fun s => pthg (path s)) (dhg t) /\
  moves (d_be d) (fun s => ptye (path s)) (dye t) /\ moves (d_bg d) (fun s => ptyg (path s)) (dyg t) /\
  moves (d_he d) (fun s => ptze (path s)) (dze t) /\ moves (d_hg d) (fun s => ptzg (path s)) (dzg t).
