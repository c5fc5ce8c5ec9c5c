(** Specification vocabulary for C61: the optimality conditions
      g + Wx' w = s,  s = 0 on the stable variables,  x fixed on the unstable ones,
      v = 0,  A x + Ap p = b,  h = 0
    differentiated with respect to a parameter c. *)
From Coq Require Import List.
From mathcomp Require Import all_ssreflect all_algebra.
From Verif Require Import Canonical_model Sens_model.
Set Implicit Arguments.
Unset Strict Implicit.
Unset Printing Implicit Defensive.
Local Open Scope ring_scope.
Import GRing.Theory.

Section SensSpec.
Variables (F : realFieldType) (nx np ny nz : nat) (M : mmat F) (k : cderivs F) (t : sens F).

(** d/dc of the entry i of g + Wx' w, where H contains the second derivatives *)
Definition d_stability (i : nat) : F :=
  cfx k i + \sum_(j < nx) mHxx M i j * sx t j + \sum_(j < np) mHxp M i j * sp t j + \sum_(l < ny + nz) mWx M l i * sw t l.
(** d/dc of the residuals of the constraints *)
Definition d_v (l : nat) : F :=
  cv k l + \sum_(j < nx) mVpx M l j * sx t j + \sum_(j < np) mVpp M l j * sp t j.
Definition d_constraint (l : nat) : F :=
  \sum_(j < nx) mWx M l j * sx t j + \sum_(j < np) mWp M l j * sp t j
  - (if (l < ny)%N then cb k l else - ch k (l - ny)%N).

Definition d_stationary (js : list nat) : Prop := forall i, In i js -> d_stability i = 0.
Definition d_fixed (ju : list nat) : Prop := forall i, In i ju -> sx t i = 0.
Definition d_external : Prop := forall l, (l < np)%N -> d_v l = 0.
Definition d_constraints : Prop := forall l, (l < ny + nz)%N -> d_constraint l = 0.
(** (x', p', w') satisfies the differentiated conditions *)
Definition differentiated (js ju : list nat) : Prop :=
  [/\ d_stationary js, d_fixed ju, d_external & d_constraints].
End SensSpec.
