(** Property theorems C13, C14, C15, C64 and C66. *)
From Coq Require Import List Arith Bool ZArith Reals Lra Lia.
From Coq Require Import Floats.SpecFloat.
Import ListNotations.
From Verif Require Import Num Minimize_model Minimize_spec Minimize_proofs.
Local Open Scope R_scope.

(** ** C13: exact arithmetic, every f, every fuel with which the run ends *)
Theorem C13_brent_inside_and_no_worse : forall (f : R -> R) fuel lo hi tol maxiters r evals,
  lo <= hi -> 0 < tol ->
  minimizeBrent f fuel lo hi tol maxiters = Some (r, evals) ->
  lo <= r <= hi /\ In r evals /\ In hi evals /\
  forall e, In e evals -> lo <= e <= hi /\ f r <= f e.
Proof. exact brent_correct. Qed.
Print Assumptions C13_brent_inside_and_no_worse.

(** The run always ends, in any arithmetic, after at most maxiters iterations
    (2^32 when maxiters is 0). *)
Theorem C14_brent_terminates : forall (T : Type) (N : Num T) (f : T -> T) fuel lo hi tol maxiters,
  (0 <= maxiters < 2 ^ 32)%Z -> (budget maxiters <= Z.of_nat fuel)%Z ->
  minimizeBrent f fuel lo hi tol maxiters <> None.
Proof. exact @brent_terminates. Qed.
Print Assumptions C14_brent_terminates.

(** ** C14: holds for every positive budget ... *)
Theorem C14_brent_budget_partial : forall (T : Type) (N : Num T) (f : T -> T) fuel lo hi tol maxiters r evals,
  (1 <= maxiters < 2 ^ 32)%Z ->
  minimizeBrent f fuel lo hi tol maxiters = Some (r, evals) ->
  (Z.of_nat (length evals) <= maxiters + 1)%Z.
Proof.
  intros T N f fuel lo hi tol maxiters r evals H E.
  pose proof (brent_budget f fuel lo hi tol maxiters r evals ltac:(lia) E) as B.
  unfold budget in B. destruct (Z.eqb_spec maxiters 0); lia.
Qed.
Print Assumptions C14_brent_budget_partial.

(** ... and fails for maxiters = 0: the unsigned counter wraps around. *)
Definition sq (x : spec_float) : spec_float := nmul x x.
Theorem C14_brent_budget_refuted : exists (f : spec_float -> spec_float) fuel lo hi tol r evals,
  minimizeBrent f fuel lo hi tol 0 = Some (r, evals) /\ (Z.of_nat (length evals) > 0 + 1)%Z.
Proof.
  exists sq, 100%nat, (nofZ (-1)), (nofZ 2), (ndiv (nofZ 1) (nofZ 10)).
  eexists; eexists; split; [vm_compute; reflexivity|]. cbn. lia.
Qed.
Print Assumptions C14_brent_budget_refuted.

Example C13_C14_case : exists r evals,
  minimizeBrent sq 10 (nofZ (-1)) (nofZ 2) (ndiv (nofZ 1) (nofZ 1000)) 5 = Some (r, evals) /\ length evals = 6%nat.
Proof. eexists; eexists; split; [vm_compute; reflexivity|reflexivity]. Qed.

(** ** C15: every tolerance keeps the search inside the interval ... *)
Theorem C15_golden_inside : forall (f : R -> R) fuel a b tol r evals, a <= b ->
  minimizeGoldenSectionSearch f fuel a b tol = Some (r, evals) ->
  a <= r <= b /\ Forall (fun x => a <= x <= b) evals.
Proof. exact golden_inside. Qed.
Print Assumptions C15_golden_inside.

(** ... and the search ends (exact arithmetic) after at most 64 iterations for
    every tolerance down to 2e-12. *)
Theorem C15_golden_terminates_partial : forall (f : R -> R) fuel a b tol,
  a <= b -> 2 / 1000000000000 <= tol -> (64 <= fuel)%nat ->
  exists r evals, minimizeGoldenSectionSearch f fuel a b tol = Some (r, evals) /\ (length evals <= 66)%nat.
Proof. exact golden_terminates. Qed.
Print Assumptions C15_golden_terminates_partial.

(** For smaller positive tolerances it need not: phi is rounded to 11 digits and
    the interior points drift by about 1e-13.  In binary64 with tol = 1e-14 the
    search for the minimum of |x - 0.38196601125| on [0,1] runs for ever. *)
Theorem C15_golden_terminates_refuted :
  exists (f : spec_float -> spec_float) (a b tol : spec_float),
  SFltb (nofZ 0) tol = true /\ SFltb a b = true /\
  forall fuel, minimizeGoldenSectionSearch f fuel a b tol = None.
Proof.
  exists bad_f, (nofZ 0), (nofZ 1), bad_tol. split; [reflexivity|]. split; [reflexivity|].
  exact golden_b64_never_ends.
Qed.
Print Assumptions C15_golden_terminates_refuted.

Example C15_case : exists r evals,
  minimizeGoldenSectionSearch sq 64 (nofZ (-1)) (nofZ 2) (ndiv (nofZ 1) (nofZ 100)) = Some (r, evals) /\
  length evals = 9%nat.
Proof. eexists; eexists; split; [vm_compute; reflexivity|reflexivity]. Qed.

(** ** C64: on a unimodal function the result is within 3*tol*(b-a) of the minimiser *)
Theorem C64_golden_finds_minimum : forall (f : R -> R) a b m tol fuel,
  a < b -> unimodal f a b m -> 2 / 1000000000000 <= tol -> (64 <= fuel)%nat ->
  exists r evals, minimizeGoldenSectionSearch f fuel a b tol = Some (r, evals) /\
  Rabs (r - m) <= 3 * tol * (b - a).
Proof. exact golden_unimodal. Qed.
Print Assumptions C64_golden_finds_minimum.

Example C64_case : unimodal (fun x => x * x) (-1) 2 0.
Proof. split; [lra|]. split; intros x y H1 H2 H3; nra. Qed.

(** ** C66: on a unimodal function, a run of minimizeBrent that stops before its budget is
    spent returns a point within tol*(2|r|+1/2) of the minimiser *)
Theorem C66_brent_finds_minimum : forall (f : R -> R) fuel lo hi m tol maxiters r evals,
  0 < tol -> unimodal f lo hi m -> (1 <= maxiters < 2 ^ 32)%Z ->
  minimizeBrent f fuel lo hi tol maxiters = Some (r, evals) -> (Z.of_nat (length evals) <= maxiters)%Z ->
  Rabs (r - m) <= tol * (2 * Rabs r + 1 / 2).
Proof. exact brent_unimodal. Qed.
Print Assumptions C66_brent_finds_minimum.

(** such runs exist: the same search in binary64 stops after 9 evaluations *)
Example C66_case : unimodal (fun x => x * x) (-1) 2 0 /\ exists r evals,
  minimizeBrent sq 100 (nofZ (-1)) (nofZ 2) (ndiv (nofZ 1) (nofZ 10)) 50 = Some (r, evals) /\ (length evals <= 50)%nat.
Proof.
  split; [apply C64_case|]. eexists; eexists; split; [vm_compute; reflexivity|]. cbn. lia.
Qed.
