(** What a user's function must deliver when it is called with options. *)
From Coq Require Import List Reals Bool.
From Verif Require Import Num Wrapper_model Wrapper_spec Calls_model.

(** At the options [o] the objective function [g] delivers the gradient of [f] and those of its second
    derivatives that are asked for; a matrix without columns has nothing to deliver.  The
    value of the objective function, and what is not asked for, may be anything. *)
Definition delivers_f (nx np nc : nat) (o : evopts) (g f : ofun R) : Prop := forall x p c,
  (forall i, (i < nx)%nat -> o_fx (ovalue g x p c) i = o_fx (ovalue f x p c) i) /\
  (e_ddx o = true -> forall i j, (i < nx)%nat -> (j < nx)%nat -> o_fxx (ovalue g x p c) i j = o_fxx (ovalue f x p c) i j) /\
  (e_ddp o = true \/ np = 0%nat -> forall i k, (i < nx)%nat -> o_fxp (ovalue g x p c) i k = o_fxp (ovalue f x p c) i k) /\
  (e_ddc o = true \/ nc = 0%nat -> forall i k, (i < nx)%nat -> o_fxc (ovalue g x p c) i k = o_fxc (ovalue f x p c) i k).

(** ... and a constraint function with [n] rows its value and the derivatives asked for *)
Definition delivers_c (n nx np nc : nat) (o : evopts) (g f : cfun R) : Prop := forall x p c,
  (forall i, (i < n)%nat -> c_val (value g x p c) i = c_val (value f x p c) i) /\
  (e_ddx o = true -> forall i j, (i < n)%nat -> (j < nx)%nat -> c_ddx (value g x p c) i j = c_ddx (value f x p c) i j) /\
  (e_ddp o = true \/ np = 0%nat -> forall i k, (i < n)%nat -> c_ddp (value g x p c) i k = c_ddp (value f x p c) i k) /\
  (e_ddc o = true \/ nc = 0%nat -> forall i k, (i < n)%nat -> c_ddc (value g x p c) i k = c_ddc (value f x p c) i k).

(** All functions of a problem at the options [o] *)
Definition delivers (P : problem R xreal) (F : ofuns) (o : evopts) : Prop :=
  let d := p_dims P in let nc := length (p_c P) in
  delivers_f (d_x d) (d_p d) nc o (of_f F o) (uf P) /\
  delivers_c (d_he d) (d_x d) (d_p d) nc o (of_he F o) (uhe P) /\
  delivers_c (d_hg d) (d_x d) (d_p d) nc o (of_hg F o) (uhg P) /\
  delivers_c (d_p d) (d_x d) (d_p d) nc o (of_v F o) (uv P).
