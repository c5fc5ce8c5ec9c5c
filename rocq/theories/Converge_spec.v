(** Specification vocabulary for C87. *)
From Coq Require Import List Arith Bool Reals.
From Coquelicot Require Import Coquelicot.
From Verif Require Import Num Wrapper_model Wrapper_spec.
Import ListNotations.
Local Open Scope R_scope.

(** The list x with entry j replaced by t *)
Definition set_at (x : list R) (j : nat) (t : R) : list R := firstn j x ++ t :: skipn (S j) x.

(** The derivatives with respect to x that the user's functions return are the derivatives: the
    gradient and the Hessian of f, and the Jacobians of h. *)
Definition correct_derivatives (P : problem R xreal) : Prop :=
  let d := p_dims P in
  forall x p, length x = d_x d -> length p = d_p d -> forall j, (j < d_x d)%nat ->
    is_derive (fun t => o_f (ovalue (uf P) (set_at x j t) p (p_c P))) (at_ x j) (o_fx (ovalue (uf P) x p (p_c P)) j) /\
    (forall i, (i < d_x d)%nat ->
       is_derive (fun t => o_fx (ovalue (uf P) (set_at x j t) p (p_c P)) i) (at_ x j) (o_fxx (ovalue (uf P) x p (p_c P)) i j)) /\
    (forall i, (i < d_he d)%nat ->
       is_derive (fun t => c_val (value (uhe P) (set_at x j t) p (p_c P)) i) (at_ x j) (c_ddx (value (uhe P) x p (p_c P)) i j)) /\
    (forall i, (i < d_hg d)%nat ->
       is_derive (fun t => c_val (value (uhg P) (set_at x j t) p (p_c P)) i) (at_ x j) (c_ddx (value (uhg P) x p (p_c P)) i j)).

(** ** Local convergence *)
From Verif Require Import Status_spec End_spec SensW_spec.

(** All components of a direction are at most r in magnitude. *)
Definition bounded (d : dims) (r : R) (t : udir) : Prop :=
  (forall i, (i < d_x d)%nat -> Rabs (dx t i) <= r) /\ (forall i, (i < d_p d)%nat -> Rabs (dp t i) <= r) /\
  (forall i, (i < d_bg d)%nat -> Rabs (dbg t i) <= r) /\ (forall i, (i < d_hg d)%nat -> Rabs (dhg t i) <= r) /\
  (forall i, (i < d_be d)%nat -> Rabs (dye t i) <= r) /\ (forall i, (i < d_bg d)%nat -> Rabs (dyg t i) <= r) /\
  (forall i, (i < d_he d)%nat -> Rabs (dze t i) <= r) /\ (forall i, (i < d_hg d)%nat -> Rabs (dzg t i) <= r).
(** The direction from point a to point b *)
Definition diff (a b : upoint) : udir :=
  UDir (fun i => at_ (ptx b) i - at_ (ptx a) i) (fun i => at_ (ptp b) i - at_ (ptp a) i)
       (fun i => at_ (ptbg b) i - at_ (ptbg a) i) (fun i => at_ (pthg b) i - at_ (pthg a) i)
       (fun i => at_ (ptye b) i - at_ (ptye a) i) (fun i => at_ (ptyg b) i - at_ (ptyg a) i)
       (fun i => at_ (ptze b) i - at_ (ptze a) i) (fun i => at_ (ptzg b) i - at_ (ptzg a) i).
Definition pt_sized (d : dims) (a : upoint) : Prop :=
  length (ptx a) = d_x d /\ length (ptp a) = d_p d /\ length (ptbg a) = d_bg d /\ length (pthg a) = d_hg d /\
  length (ptye a) = d_be d /\ length (ptyg a) = d_bg d /\ length (ptze a) = d_he d /\ length (ptzg a) = d_hg d.

Section Rows.
Variables (P : problem R xreal) (b : upoint) (t : udir).
Let d := p_dims P.
(** The left-hand sides of the optimality conditions linearised at b (as in tangent_eqs, C86: without
    the second derivatives of the constraints) *)
Definition lhs_x (j : nat) : R :=
  sum (d_x d) (fun i => o_fxx (at_f P b) j i * dx t i) + sum (d_p d) (fun k => o_fxp (at_f P b) j k * dp t k)
  + sum (d_be d) (fun i => p_Aex P i j * dye t i) + sum (d_bg d) (fun i => p_Agx P i j * dyg t i)
  + sum (d_he d) (fun i => c_ddx (at_he P b) i j * dze t i) + sum (d_hg d) (fun i => c_ddx (at_hg P b) i j * dzg t i).
Definition lhs_v (l : nat) : R := sum (d_x d) (fun i => c_ddx (at_v P b) l i * dx t i) + sum (d_p d) (fun k => c_ddp (at_v P b) l k * dp t k).
Definition lhs_be (i : nat) : R := sum (d_x d) (fun j => p_Aex P i j * dx t j) + sum (d_p d) (fun k => p_Aep P i k * dp t k).
Definition lhs_bg (i : nat) : R := sum (d_x d) (fun j => p_Agx P i j * dx t j) + sum (d_p d) (fun k => p_Agp P i k * dp t k) + dbg t i.
Definition lhs_he (i : nat) : R := sum (d_x d) (fun j => c_ddx (at_he P b) i j * dx t j) + sum (d_p d) (fun k => c_ddp (at_he P b) i k * dp t k).
Definition lhs_hg (i : nat) : R := sum (d_x d) (fun j => c_ddx (at_hg P b) i j * dx t j) + sum (d_p d) (fun k => c_ddp (at_hg P b) i k * dp t k) + dhg t i.
End Rows.

Section Local.
Variables (P : problem R xreal) (a : upoint).
Let d := p_dims P.

(** b is at most r away from a, and what is held at a is where it is at a. *)
Definition near (r : R) (b : upoint) : Prop :=
  pt_sized d b /\ bounded d r (diff a b) /\
  (forall j, (j < d_x d)%nat -> held P a j -> at_ (ptx b) j = at_ (ptx a) j) /\
  (forall i, (i < d_bg d)%nat -> bg_held a i -> at_ (ptbg b) i = 0) /\
  (forall i, (i < d_hg d)%nat -> hg_held a i -> at_ (pthg b) i = 0).

(** The linearised optimality conditions at a determine the direction, with condition number kappa. *)
Definition conditioned (kappa : R) : Prop := forall t eps,
  (forall j, (j < d_x d)%nat -> held P a j -> dx t j = 0) ->
  (forall j, (j < d_x d)%nat -> ~ held P a j -> Rabs (lhs_x P a t j) <= eps) ->
  (forall l, (l < d_p d)%nat -> Rabs (lhs_v P a t l) <= eps) ->
  (forall i, (i < d_be d)%nat -> Rabs (lhs_be P t i) <= eps) -> (forall i, (i < d_bg d)%nat -> Rabs (lhs_bg P t i) <= eps) ->
  (forall i, (i < d_he d)%nat -> Rabs (lhs_he P a t i) <= eps) -> (forall i, (i < d_hg d)%nat -> Rabs (lhs_hg P a t i) <= eps) ->
  (forall i, (i < d_bg d)%nat -> (bg_held a i -> dbg t i = 0) /\ (~ bg_held a i -> dyg t i = 0)) ->
  (forall i, (i < d_hg d)%nat -> (hg_held a i -> dhg t i = 0) /\ (~ hg_held a i -> dzg t i = 0)) ->
  bounded d (kappa * eps) t.

(** Within rho of a: the derivatives change by at most L times the distance (and so the remainders of
    Taylor's formula are at most L times its square), and the second derivatives of the
    constraints, weighted with the multipliers at a, are at most C. *)
Definition smooth (L C rho : R) : Prop := forall r b, 0 <= r <= rho -> near r b ->
  (forall j, (j < d_x d)%nat -> Rabs (o_fx (at_f P a) j - o_fx (at_f P b) j
     - sum (d_x d) (fun i => o_fxx (at_f P b) j i * dx (diff b a) i) - sum (d_p d) (fun k => o_fxp (at_f P b) j k * dp (diff b a) k)) <= L * (r * r)) /\
  (forall l, (l < d_p d)%nat -> Rabs (c_val (at_v P a) l - c_val (at_v P b) l - lhs_v P b (diff b a) l) <= L * (r * r)) /\
  (forall i, (i < d_he d)%nat -> Rabs (c_val (at_he P a) i - c_val (at_he P b) i - lhs_he P b (diff b a) i) <= L * (r * r)) /\
  (forall i, (i < d_hg d)%nat -> Rabs (c_val (at_hg P a) i - c_val (at_hg P b) i - (lhs_hg P b (diff b a) i - dhg (diff b a) i)) <= L * (r * r)) /\
  (forall j, (j < d_x d)%nat ->
     Rabs (sum (d_he d) (fun i => (c_ddx (at_he P a) i j - c_ddx (at_he P b) i j) * at_ (ptze a) i)
         + sum (d_hg d) (fun i => (c_ddx (at_hg P a) i j - c_ddx (at_hg P b) i j) * at_ (ptzg a) i)) <= C * r) /\
  (forall delta t, bounded d delta t ->
     (forall j, (j < d_x d)%nat -> Rabs (lhs_x P a t j - lhs_x P b t j) <= L * (r * delta)) /\
     (forall l, (l < d_p d)%nat -> Rabs (lhs_v P a t l - lhs_v P b t l) <= L * (r * delta)) /\
     (forall i, (i < d_he d)%nat -> Rabs (lhs_he P a t i - lhs_he P b t i) <= L * (r * delta)) /\
     (forall i, (i < d_hg d)%nat -> Rabs (lhs_hg P a t i - lhs_hg P b t i) <= L * (r * delta))).

(** What is left of the constraints at b, in the order be, bg, he, hg of the constraints *)
Definition left_be (b : upoint) (i : nat) : R := at_ (p_be P) i - lin (d_x d) (d_p d) (p_Aex P) (p_Aep P) (ptx b) (ptp b) i.
Definition left_bg (b : upoint) (i : nat) : R := at_ (p_bg P) i - lin (d_x d) (d_p d) (p_Agx P) (p_Agp P) (ptx b) (ptp b) i - at_ (ptbg b) i.
Definition left_he (b : upoint) (i : nat) : R := - c_val (at_he P b) i.
Definition left_hg (b : upoint) (i : nat) : R := - c_val (at_hg P b) i - at_ (pthg b) i.
Definition stab (b : upoint) (j : nat) : R := user_stability P (ptx b) (ptp b) (ptye b) (ptyg b) (ptze b) (ptzg b) j.
(** Within rho of a, the residuals change by at most K times the distance. *)
Definition lipschitz (K rho : R) : Prop := forall r b, 0 <= r <= rho -> near r b ->
  (forall j, (j < d_x d)%nat -> Rabs (stab b j - stab a j) <= K * r) /\
  (forall l, (l < d_p d)%nat -> Rabs (c_val (at_v P b) l) <= K * r) /\
  (forall i, (i < d_be d)%nat -> Rabs (left_be b i) <= K * r) /\ (forall i, (i < d_bg d)%nat -> Rabs (left_bg b i) <= K * r) /\
  (forall i, (i < d_he d)%nat -> Rabs (left_he b i) <= K * r) /\ (forall i, (i < d_hg d)%nat -> Rabs (left_hg b i) <= K * r).

(** Strict complementarity with margin mu: a held variable or inequality constraint has a derivative or multiplier
    of magnitude at least mu; a variable not held keeps inside its bounds, off them, when
    moved by less than mu; an inequality constraint not held has at least mu of slack. *)
Definition margins (mu : R) : Prop :=
  (forall j, (j < d_x d)%nat -> held P a j -> mu <= Rabs (stab a j)) /\
  (forall j s, (j < d_x d)%nat -> ~ held P a j -> Rabs (s - at_ (ptx a) j) < mu ->
     xleb (bd (p_xlower P) j) (XF s) = true /\ xleb (XF s) (bd (p_xupper P) j) = true /\ ~ at_bound s (bd (p_xlower P) j) (bd (p_xupper P) j)) /\
  (forall i, (i < d_bg d)%nat -> (bg_held a i -> at_ (ptyg a) i <= - mu) /\ (~ bg_held a i -> at_ (ptbg a) i <= - mu)) /\
  (forall i, (i < d_hg d)%nat -> (hg_held a i -> at_ (ptzg a) i <= - mu) /\ (~ hg_held a i -> at_ (pthg a) i <= - mu)) /\
  (forall k s, (k < d_p d)%nat -> Rabs (s - at_ (ptp a) k) < mu -> xleb (bd (p_plower P) k) (XF s) = true /\ xleb (XF s) (bd (p_pupper P) k) = true).

(** Within rho of a, for every choice jb of as many variables off their bounds as there are constraints for which the
    derivatives of the constraints have an inverse V: the rows of V have absolute sums at most Gamma,
    the level of round-off of the combinations of the constraints with these rows is at most rm, and the
    columns jb of the derivatives have absolute row sums at most A. *)
Definition bases (M : master R xreal) (Gamma rm A rho : R) : Prop := forall b jb V, near rho b ->
  let X := ptx b ++ ptbg b ++ pthg b in let nw := (d_be d + d_bg d + d_he d + d_hg d)%nat in
  length jb = nw -> NoDup jb -> inverts M X (ptp b) jb V ->
  (forall j, In j jb -> (j < ms_nx M)%nat /\ ~ at_bound (at_ X j) (bd (ms_xlower M) j) (bd (ms_xupper M) j)) ->
  (forall i, (i < nw)%nat -> sum nw (fun l => Rabs (V i l)) <= Gamma /\ row_room M X (ptp b) V i <= rm) /\
  (forall l, (l < nw)%nat -> sum nw (fun i => Rabs (cWx M X (ptp b) l (nth i jb 0%nat))) <= A).
End Local.

(** The distance after k iterations from a distance r: (8/7) kappa (C r + L r^2 + eta) in each. *)
Fixpoint radius (kappa L C eta : R) (r : R) (k : nat) : R :=
  match k with O => r | S k' => let q := radius kappa L C eta r k' in 8 / 7 * (kappa * (C * q + L * (q * q) + eta)) end.
