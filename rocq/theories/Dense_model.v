(** Model of inverseShermanMorrison (Optima/Utils.cpp:473-479) and bfgs
    (Optima/Utils.cpp:261-294) in exact arithmetic over a field. *)
From mathcomp Require Import all_ssreflect all_algebra.
Set Implicit Arguments.
Unset Strict Implicit.
Unset Printing Implicit Defensive.
Local Open Scope ring_scope.
Import GRing.Theory.

Section ShermanMorrison.
Variables (F : fieldType) (n : nat).

(** Utils.cpp:477, one pass; division by zero is a hypothesis of the theorems *)
Definition sm_step (D : 'cV[F]_n) (invM : 'M[F]_n) (i : 'I_n) : 'M[F]_n :=
  invM - (D i 0 / (1 + D i 0 * invM i i)) *: (col i invM *m row i invM).
(** Utils.cpp:473-479; the loop runs over all rows of D, here as many as those of invA *)
Definition inverseShermanMorrison (invA : 'M[F]_n) (D : 'cV[F]_n) : 'M[F]_n :=
  foldl (sm_step D) invA (enum 'I_n).
End ShermanMorrison.

Section BFGS.
Variables (F : fieldType) (n : nat).

(** the captured variables x0, g0, H of the closure (263-267); dx and dg are
    overwritten before use.  [None]: before the first call, x0.size() == 0.
    For n = 0 the code takes the first branch at every call; nothing differs as
    there are no entries. *)
Definition bfgs_state : Type := option ('cV[F]_n * 'cV[F]_n * 'M[F]_n)%type.

(** Utils.cpp:284-288 *)
Definition bfgs_update (H : 'M[F]_n) (dx dg : 'cV[F]_n) : 'M[F]_n :=
  let a := (dx^T *m dg) 0 0 in
  (1%:M - a^-1 *: (dx *m dg^T)) *m H *m (1%:M - a^-1 *: (dg *m dx^T)) + a^-1 *: (dx *m dx^T).

(** Utils.cpp:269-291, one call: new captured variables; the returned matrix is H *)
Definition bfgs_call (st : bfgs_state) (x g : 'cV[F]_n) : 'cV[F]_n * 'cV[F]_n * 'M[F]_n :=
  match st with
  | None => (x, g, diag_mx x^T)
  | Some (x0, g0, H) => (x, g, bfgs_update H (x - x0) (g - g0))
  end.
Definition bfgs_run (calls : seq ('cV[F]_n * 'cV[F]_n)) : bfgs_state :=
  foldl (fun st c => Some (bfgs_call st c.1 c.2)) None calls.
End BFGS.
