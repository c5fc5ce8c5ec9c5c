(** Property theorem C78: the flag of ResidualFunctionResult tells whether the evaluations succeeded. *)
From Coq Require Import List Bool PeanoNat Lia.
From Verif Require Import Loop_model.
Import ListNotations.

(** One evaluation of f, h and v: which of the user's functions report success *)
Record outcome := Outcome { ok_f : bool; ok_h : bool; ok_v : bool }.
(** The functions that take part: h only if there are nonlinear constraints, v only if there are parameters *)
Definition all_succeeded (nz np : nat) (o : outcome) : Prop :=
  ok_f o = true /\ (nz > 0 -> ok_h o = true) /\ (np > 0 -> ok_v o = true).
Definition evaluate (nz np : nat) (fl : flags) (o : outcome) : flags := eval_flags nz np (ok_f o) (ok_h o) (ok_v o) fl.

(** ** C78.  Any number of evaluations [hist] of problems of this shape, then one more: the
    flag tells whether that one succeeded.  Missing: earlier problems with other numbers of
    constraints and parameters (C54_flags_refuted). *)
Theorem C78_flag_partial : forall nz np hist o,
  all_ok (evaluate nz np (fold_left (evaluate nz np) hist (Flags true true true)) o) = true <-> all_succeeded nz np o.
Proof.
intros nz np hist o.
set (fl := fold_left _ _ _).
assert (K : (nz = 0 -> fl_h fl = true) /\ (np = 0 -> fl_v fl = true)).
{ unfold fl. assert (I : (nz = 0 -> fl_h (Flags true true true) = true) /\ (np = 0 -> fl_v (Flags true true true) = true)) by (split; reflexivity).
  revert I. generalize (Flags true true true).
  induction hist as [|a hist IH]; intros f0 I; [exact I|]. cbn [fold_left]. apply IH.
  destruct I as [I1 I2]. unfold evaluate, eval_flags; cbn [fl_h fl_v].
  split; intros ->; cbn; auto. }
destruct K as [K1 K2]. unfold all_ok, evaluate, eval_flags, all_succeeded; cbn [fl_f fl_h fl_v].
rewrite !andb_true_iff.
destruct (Nat.eqb nz 0) eqn:Z; [apply Nat.eqb_eq in Z | apply Nat.eqb_neq in Z];
(destruct (Nat.eqb np 0) eqn:Q; [apply Nat.eqb_eq in Q | apply Nat.eqb_neq in Q]);
  try specialize (K1 Z); try specialize (K2 Q); intuition; try lia; auto.
Qed.
Print Assumptions C78_flag_partial.

(** Two evaluations that fail for different reasons, then one that succeeds except for an unused h *)
Example C78_case : all_succeeded 0 2 (Outcome true false true) /\
  all_ok (evaluate 0 2 (fold_left (evaluate 0 2) [Outcome false true true; Outcome true true false] (Flags true true true)) (Outcome true false true)) = true.
Proof. split; [|reflexivity]. split; [reflexivity|]. split; [lia|reflexivity]. Qed.
