(** Specification vocabulary for C81: a problem that is its own linearisation between two points. *)
From Coq Require Import List Arith Reals.
From Verif Require Import Num Wrapper_model Wrapper_spec.
Local Open Scope R_scope.

(** The change from (x, p) to (x', p') that derivatives A (by x) and B (by p) predict *)
Definition predicted (nx np : nat) (x p x' p' : list R) (A B : nat -> nat -> R) (i : nat) : R :=
  sum nx (fun j => A i j * (at_ x' j - at_ x j)) + sum np (fun k => B i k * (at_ p' k - at_ p k)).

Section Exact.
Variables (M : master R xreal) (x p x' p' : list R).
Let predicted := predicted (ms_nx M) (ms_np M) x p x' p'.
(** The derivatives evaluated at (x, p) predict the gradient, h and v at (x', p') exactly, and
    h has the same derivatives by x there; so it is when f is quadratic and h, v are affine. *)
Definition exact_linearisation : Prop :=
  let f := ovalue (ms_f M) x p (ms_c M) in let f' := ovalue (ms_f M) x' p' (ms_c M) in
  let h := value (ms_h M) x p (ms_c M) in let h' := value (ms_h M) x' p' (ms_c M) in
  let v := value (ms_v M) x p (ms_c M) in let v' := value (ms_v M) x' p' (ms_c M) in
  (forall j, (j < ms_nx M)%nat -> o_fx f' j = o_fx f j + predicted (o_fxx f) (o_fxp f) j) /\
  (forall l, (l < ms_nz M)%nat -> c_val h' l = c_val h l + predicted (c_ddx h) (c_ddp h) l) /\
  (forall k, (k < ms_np M)%nat -> c_val v' k = c_val v k + predicted (c_ddx v) (c_ddp v) k) /\
  (forall l j, (l < ms_nz M)%nat -> (j < ms_nx M)%nat -> c_ddx h' l j = c_ddx h l j).
End Exact.

Section UserExact.
Variables (P : problem R xreal) (x p x' p' : list R).
Let d := p_dims P.
Let predicted := predicted (d_x d) (d_p d) x p x' p'.
(** The same for the functions given by the user *)
Definition constraint_exact (h : cfun R) (m : nat) : Prop :=
  let h0 := value h x p (p_c P) in let h1 := value h x' p' (p_c P) in
  (forall l, (l < m)%nat -> c_val h1 l = c_val h0 l + predicted (c_ddx h0) (c_ddp h0) l) /\
  (forall l j, (l < m)%nat -> (j < d_x d)%nat -> c_ddx h1 l j = c_ddx h0 l j).
Definition user_exact : Prop :=
  let f0 := ovalue (uf P) x p (p_c P) in let f1 := ovalue (uf P) x' p' (p_c P) in
  let v0 := value (uv P) x p (p_c P) in let v1 := value (uv P) x' p' (p_c P) in
  (forall j, (j < d_x d)%nat -> o_fx f1 j = o_fx f0 j + predicted (o_fxx f0) (o_fxp f0) j) /\
  constraint_exact (uhe P) (d_he d) /\ constraint_exact (uhg P) (d_hg d) /\
  (forall k, (k < d_p d)%nat -> c_val v1 k = c_val v0 k + predicted (c_ddx v0) (c_ddp v0) k).
End UserExact.
