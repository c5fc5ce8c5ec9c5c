(** Specification vocabulary for C84. *)
From Coq Require Import List Permutation Reals.
From Verif Require Import Num Wrapper_model Wrapper_spec.
Local Open Scope R_scope.

(** The stability measure of variable j as State.hpp:38 defines it:
    s = g + tr(Aex)*ye + tr(Agx)*yg + tr(Jex)*ze + tr(Jgx)*zg at (x, p). *)
Definition user_stability (P : problem R xreal) (x p ye yg ze zg : list R) (j : nat) : R :=
  let d := p_dims P in
  o_fx (ovalue (uf P) x p (p_c P)) j
  + sum (d_be d) (fun i => p_Aex P i j * at_ ye i) + sum (d_bg d) (fun i => p_Agx P i j * at_ yg i)
  + sum (d_he d) (fun i => c_ddx (value (uhe P) x p (p_c P)) i j * at_ ze i)
  + sum (d_hg d) (fun i => c_ddx (value (uhg P) x p (p_c P)) i j * at_ zg i).

(** What State.hpp:38-46 says about the index sets and the stability measures, for the point x with
    stability measures s: stable and unstable variables divide the variables, so do basic and
    non-basic ones, and the unstable ones are those at their lower and those at their upper bounds. *)
Definition sets_divide (d : dims) (st : ustate xreal) : Prop :=
  Permutation (s_js st ++ s_ju st) (seq 0 (d_x d)) /\ Permutation (s_jlu st ++ s_juu st) (s_ju st) /\
  Permutation (s_jb st ++ s_jn st) (seq 0 (d_x d)).
Definition stability_is (d : dims) (st : ustate xreal) (s : nat -> R) : Prop :=
  length (s_s st) = d_x d /\ forall j, (j < d_x d)%nat -> nth j (s_s st) XNaN = XF (s j).
(** unstable: non-basic, on a bound, and the Lagrange function decreases across that bound *)
Definition unstable_are (P : problem R xreal) (st : ustate xreal) (x : list R) (s : nat -> R) : Prop :=
  forall j, (In j (s_jlu st) <-> In j (s_jn st) /\ bd (p_xlower P) j = XF (at_ x j) /\ 0 < s j) /\
            (In j (s_juu st) <-> In j (s_jn st) /\ bd (p_xupper P) j = XF (at_ x j) /\ s j < 0).
