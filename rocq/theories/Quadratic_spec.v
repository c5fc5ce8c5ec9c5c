(** Specification vocabulary for C92: quadratic programs with linear equality constraints. *)
From Coq Require Import List Arith Bool Reals.
From Verif Require Import Num Wrapper_model Wrapper_spec.
Local Open Scope R_scope.

(** v' H v *)
Definition form (n : nat) (H : nat -> nat -> R) (v : nat -> R) : R := sum n (fun i => sum n (fun j => v i * H i j * v j)).
(** The objective function is x' H x / 2 + c' x with a symmetric H, and returns its derivatives. *)
Definition quadratic (P : problem R xreal) (H : nat -> nat -> R) (c : nat -> R) : Prop :=
  let n := d_x (p_dims P) in
  (forall i j, H i j = H j i) /\
  forall x, length x = n ->
  o_f (ovalue (uf P) x nil (p_c P)) = form n H (at_ x) / 2 + sum n (fun j => c j * at_ x j) /\
  (forall j, (j < n)%nat -> o_fx (ovalue (uf P) x nil (p_c P)) j = sum n (fun k => H j k * at_ x k) + c j) /\
  (forall i j, (i < n)%nat -> (j < n)%nat -> o_fxx (ovalue (uf P) x nil (p_c P)) i j = H i j).
(** Linear equality constraints only: no others, no parameters, no bounds. *)
Definition equalities_only (P : problem R xreal) : Prop :=
  let d := p_dims P in
  d_p d = 0%nat /\ d_bg d = 0%nat /\ d_he d = 0%nat /\ d_hg d = 0%nat /\
  (forall i, (i < d_x d)%nat -> bd (p_xlower P) i = XNInf /\ bd (p_xupper P) i = XPInf) /\ p_plower P = nil /\ p_pupper P = nil.
(** H is positive in all directions along the constraints. *)
Definition positive_along (P : problem R xreal) (H : nat -> nat -> R) : Prop :=
  let n := d_x (p_dims P) in
  forall v : nat -> R, (forall i, (i < d_be (p_dims P))%nat -> sum n (fun j => p_Aex P i j * v j) = 0) ->
    (exists2 j, (j < n)%nat & v j <> 0) -> 0 < form n H v.
(** In no basic solution V be of the constraints - V the inverse of columns jb of Aex - is a value smaller than
    2^-52 times the sum of the magnitudes it is computed from, unless it is zero. *)
Definition basic_uncancelled (P : problem R xreal) : Prop :=
  let m := d_be (p_dims P) in
  forall jb (V : nat -> nat -> R), length jb = m ->
    (forall i k, (i < m)%nat -> (k < m)%nat -> sum m (fun l => V i l * p_Aex P l (nth k jb 0%nat)) = if i =? k then 1 else 0) ->
    forall i, (i < m)%nat -> sum m (fun l => V i l * at_ (p_be P) l) = 0 \/
      / 2 ^ 52 * sum m (fun l => Rabs (V i l) * Rabs (at_ (p_be P) l)) <= Rabs (sum m (fun l => V i l * at_ (p_be P) l)).
(** No row of Aex is a combination of the others. *)
Definition independent_rows (P : problem R xreal) : Prop :=
  forall a : nat -> R, (forall j, (j < d_x (p_dims P))%nat -> sum (d_be (p_dims P)) (fun i => a i * p_Aex P i j) = 0) ->
    forall i, (i < d_be (p_dims P))%nat -> a i = 0.
