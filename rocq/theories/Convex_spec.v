(** Specification vocabulary for C91: convex problems and their minimisers. *)
From Coq Require Import List Arith Bool Reals.
From Verif Require Import Num Wrapper_model Wrapper_spec.
Import ListNotations.
Local Open Scope R_scope.

(** The point a fraction t of the way from x to y *)
Definition along (x y : list R) (t : R) : list R := map (fun ab => fst ab + t * (snd ab - fst ab)) (combine x y).
(** The change from x to y of the linear function with coefficients g *)
Definition slope (n : nat) (g : nat -> R) (x y : list R) : R := sum n (fun j => g j * (at_ y j - at_ x j)).
Definition distance1 (n : nat) (x y : list R) : R := sum n (fun j => Rabs (at_ y j - at_ x j)).
Definition distance2 (n : nat) (x y : list R) : R := sum n (fun j => (at_ y j - at_ x j) ^ 2).

(** g is the gradient of phi at x, as seen in the direction of y *)
Definition gradient_towards (n : nat) (phi : list R -> R) (g : nat -> R) (x y : list R) : Prop :=
  forall eps, eps > 0 -> exists delta, delta > 0 /\ forall t, 0 < t < delta ->
    Rabs (phi (along x y t) - phi x - t * slope n g x y) <= eps * t.
(** phi lies below its chord from x to y, by at least mu/2 t(1-t) times the square of the distance *)
Definition below_chord (n : nat) (mu : R) (phi : list R -> R) (x y : list R) : Prop :=
  forall t, 0 < t < 1 -> phi (along x y t) + mu / 2 * (t * (1 - t)) * distance2 n x y <= phi x + t * (phi y - phi x).
Definition above_chord (phi : list R -> R) (x y : list R) : Prop :=
  forall t, 0 < t < 1 -> phi x + t * (phi y - phi x) <= phi (along x y t).

(** With the parameters p, between points within the bounds: the objective function is convex (strongly
    convex when mu > 0), the equality constraints are affine and the inequality constraints concave
    (so that the set of feasible points is convex), and the derivatives the functions return are theirs. *)
Definition convex_problem (P : problem R xreal) (mu : R) (p : list R) : Prop :=
  let d := p_dims P in
  forall x y, length x = d_x d -> length y = d_x d -> within (p_xlower P) (p_xupper P) x -> within (p_xlower P) (p_xupper P) y ->
  (below_chord (d_x d) mu (fun z => o_f (ovalue (uf P) z p (p_c P))) x y /\
   gradient_towards (d_x d) (fun z => o_f (ovalue (uf P) z p (p_c P))) (o_fx (ovalue (uf P) x p (p_c P))) x y) /\
  (forall i, (i < d_he d)%nat ->
     below_chord (d_x d) 0 (fun z => c_val (value (uhe P) z p (p_c P)) i) x y /\ above_chord (fun z => c_val (value (uhe P) z p (p_c P)) i) x y /\
     gradient_towards (d_x d) (fun z => c_val (value (uhe P) z p (p_c P)) i) (c_ddx (value (uhe P) x p (p_c P)) i) x y) /\
  (forall i, (i < d_hg d)%nat ->
     above_chord (fun z => c_val (value (uhg P) z p (p_c P)) i) x y /\
     gradient_towards (d_x d) (fun z => c_val (value (uhg P) z p (p_c P)) i) (c_ddx (value (uhg P) x p (p_c P)) i) x y).

(** Feasible for the parameters p, whether or not these meet their own equations *)
Definition feasible_for (P : problem R xreal) (p x : list R) : Prop :=
  let d := p_dims P in
  (forall i, (i < d_be d)%nat -> lin (d_x d) (d_p d) (p_Aex P) (p_Aep P) x p i = at_ (p_be P) i) /\
  (forall i, (i < d_bg d)%nat -> lin (d_x d) (d_p d) (p_Agx P) (p_Agp P) x p i >= at_ (p_bg P) i) /\
  (forall i, (i < d_he d)%nat -> c_val (value (uhe P) x p (p_c P)) i = 0) /\
  (forall i, (i < d_hg d)%nat -> c_val (value (uhg P) x p (p_c P)) i >= 0) /\
  within (p_xlower P) (p_xupper P) x.
Definition objective (P : problem R xreal) (x p : list R) : R := o_f (ovalue (uf P) x p (p_c P)).
(** x minimises the objective function for the parameters p *)
Definition minimises (P : problem R xreal) (p x : list R) : Prop :=
  feasible_for P p x /\ forall y, length y = d_x (p_dims P) -> feasible_for P p y -> objective P x p <= objective P y p.

(** How far y is from x as seen by the variables and the inequality constraints linearised at x: an error
    tol in the first-order conditions at x changes the Lagrange function at y by at most tol times this *)
Definition spread (P : problem R xreal) (p x y : list R) : R :=
  let d := p_dims P in
  distance1 (d_x d) x y + sum (d_bg d) (fun i => Rabs (slope (d_x d) (p_Agx P i) x y))
  + sum (d_hg d) (fun i => Rabs (slope (d_x d) (c_ddx (value (uhg P) x p (p_c P)) i) x y)).
(** What violations room of the constraints (in the order be, bg, he, hg) are worth with the multipliers *)
Definition worth (d : dims) (room : nat -> R) (ye yg ze zg : list R) : R :=
  sum (d_be d) (fun i => Rabs (at_ ye i) * room i) + sum (d_bg d) (fun i => Rabs (at_ yg i) * room (d_be d + i)%nat)
  + sum (d_he d) (fun i => Rabs (at_ ze i) * room (d_be d + d_bg d + i)%nat)
  + sum (d_hg d) (fun i => Rabs (at_ zg i) * room (d_be d + d_bg d + d_he d + i)%nat).
