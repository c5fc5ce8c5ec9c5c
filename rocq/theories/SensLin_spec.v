(** Specification vocabulary for C109: derivatives with respect to combined parameters. *)
From mathcomp Require Import all_ssreflect all_algebra.
From Verif Require Import Canonical_model Sens_model.
Set Implicit Arguments.
Unset Strict Implicit.
Unset Printing Implicit Defensive.
Local Open Scope ring_scope.

Section SensLinSpec.
Variable F : realFieldType.
(** If a parameter c changes two others, c1 at the rate a and c2 at the rate b, the derivatives with respect to c are these *)
Definition combine (a : F) (k1 : cderivs F) (b : F) (k2 : cderivs F) : cderivs F :=
  CDerivs (fun i => a * cfx k1 i + b * cfx k2 i) (fun i => a * cv k1 i + b * cv k2 i) (fun i => a * cb k1 i + b * cb k2 i) (fun i => a * ch k1 i + b * ch k2 i).
(** the parameter in other units *)
Definition times (a : F) (k : cderivs F) : cderivs F :=
  CDerivs (fun i => a * cfx k i) (fun i => a * cv k i) (fun i => a * cb k i) (fun i => a * ch k i).
(** nothing depends on the parameter *)
Definition irrelevant (k : cderivs F) : Prop := forall i, [/\ cfx k i = 0, cv k i = 0, cb k i = 0 & ch k i = 0].

(** the chain rule for the four groups of sensitivities *)
Definition combined (nx np nw : nat) (a : F) (t1 : sens F) (b : F) (t2 t : sens F) : Prop :=
  [/\ forall i, (i < nx)%N -> sx t i = a * sx t1 i + b * sx t2 i, forall i, (i < np)%N -> sp t i = a * sp t1 i + b * sp t2 i,
      forall i, (i < nw)%N -> sw t i = a * sw t1 i + b * sw t2 i & forall i, (i < nx)%N -> ss t i = a * ss t1 i + b * ss t2 i].
End SensLinSpec.
