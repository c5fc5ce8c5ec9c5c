(** Property theorems C08-C12. *)
From Coq Require Import List Arith Bool ZArith Reals Lra Lia.
From Coq Require Import Floats.SpecFloat.
Import ListNotations.
From Verif Require Import Num Index_spec Num_facts Step_model Step_spec Step_proofs.
Local Open Scope R_scope.

(** ** C08: binary64, every rounding included.  An entry of the result is NaN or
    lies exactly within its bounds. *)
Theorem C08_conservative_step_within_bounds : forall n (p dp pl pu : nat -> spec_float),
  (forall i, (i < n)%nat -> SFleb (pl i) (pu i) = true) ->
  forall i, (i < n)%nat -> let p' := fst (performConservativeStep n p dp pl pu) i in
  p' <> S754_nan -> SFleb (pl i) p' = true /\ SFleb p' (pu i) = true.
Proof. exact conservative_bounds_b64. Qed.
Print Assumptions C08_conservative_step_within_bounds.

Definition of_list {A} (d : A) (l : list A) : nat -> A := fun i => nth i l d.
Definition z64 (l : list Z) : nat -> spec_float := of_list (nofZ 0) (map nofZ l).

(** Three variables with bounds [0,+inf): the step 3 -> -6 is limited by the
    second one, factor 1/3 (rounded). *)
Example C08_case :
  let pl := z64 [0; 0; 0]%Z in
  let pu := fun _ => @ninf spec_float _ in
  let '(p', alpha) := performConservativeStep 3 (z64 [1; 3; 0]%Z) (z64 [10; -9; -1]%Z) pl pu in
  map p' [0; 1; 2]%nat = [ndiv (nofZ 13) (nofZ 3); nofZ 0; nofZ 0] /\ alpha = ndiv (nofZ 1) (nofZ 3) /\
  forallb (fun i => SFleb (pl i) (pu i)) [0; 1; 2]%nat = true.
Proof. vm_compute. repeat split; reflexivity. Qed.

(** ** C09: exact arithmetic *)
Theorem C09_conservative_step_exact : forall n (p dp : nat -> R) (pl pu : nat -> xreal),
  feasible n p pl pu ->
  let '(p', alpha) := performConservativeStep n (fun i => XF (p i)) (fun i => XF (dp i)) pl pu in
  exists a, alpha = XF a /\ 0 < a <= 1 /\
  (forall i, (i < n)%nat -> blocked p dp pl pu i -> p' i = XF (p i)) /\
  (forall i, (i < n)%nat -> ~ blocked p dp pl pu i ->
     p' i = XF (p i + a * dp i) /\ within (pl i) (pu i) (p i + a * dp i)) /\
  (a < 1 -> exists i, (i < n)%nat /\ ~ blocked p dp pl pu i /\ (p' i = pl i \/ p' i = pu i) /\
     forall b, a < b <= 1 -> ~ within (pl i) (pu i) (p i + b * dp i)).
Proof. exact conservative_exact. Qed.
Print Assumptions C09_conservative_step_exact.

Example C09_case : feasible 2 (of_list 0 [1; 0]) (fun _ => XF 0) (fun _ => XPInf) /\
  blocked (of_list 0 [1; 0]) (of_list 0 [-2; -1]) (fun _ => XF 0) (fun _ => XPInf) 1.
Proof.
  split; [|left; split; [reflexivity|unfold of_list; simpl; lra]].
  intros i Hi. split; [|reflexivity]. simpl. apply rleb_true.
  destruct i as [|[|i]]; unfold of_list; simpl; try lra. lia.
Qed.

(** ** C10 *)
Theorem C10_aggressive_step_within_bounds : forall n (p dp pl pu : nat -> spec_float),
  (forall i, (i < n)%nat -> SFleb (pl i) (pu i) = true) ->
  forall i, (i < n)%nat -> let p' := performAggressiveStep n p dp pl pu i in
  p' <> S754_nan -> SFleb (pl i) p' = true /\ SFleb p' (pu i) = true.
Proof. exact aggressive_bounds_b64. Qed.
Print Assumptions C10_aggressive_step_within_bounds.

Theorem C10_aggressive_step_is_projection : forall n (p dp : nat -> R) (pl pu : nat -> xreal),
  (forall i, (i < n)%nat -> exists y, within (pl i) (pu i) y) ->
  forall i, (i < n)%nat -> exists z,
    performAggressiveStep n (fun i => XF (p i)) (fun i => XF (dp i)) pl pu i = XF z /\
    within (pl i) (pu i) z /\
    forall y, within (pl i) (pu i) y -> Rabs (z - (p i + dp i)) <= Rabs (y - (p i + dp i)).
Proof. exact aggressive_projection. Qed.
Print Assumptions C10_aggressive_step_is_projection.

Example C10_case :
  map (performAggressiveStep 3 (z64 [1; 3; 0]%Z) (z64 [10; -9; 1]%Z) (z64 [0; 0; 0]%Z) (z64 [5; 5; 5]%Z)) [0; 1; 2]%nat
  = map nofZ [5; 0; 1]%Z.
Proof. reflexivity. Qed.

(** ** C11 *)
Theorem C11_largestStep_bounded : forall n (p dp : nat -> R) (pl pu : nat -> xreal),
  feasible n p pl pu ->
  let alpha := largestStep n (fun i => XF (p i)) (fun i => XF (dp i)) pl pu in
  (alpha = XPInf <-> (forall i, (i < n)%nat -> within (pl i) (pu i) (p i + dp i))) /\
  (alpha = XPInf \/ exists a, alpha = XF a /\ 0 <= a < 1 /\
     (forall i, (i < n)%nat -> within (pl i) (pu i) (p i + a * dp i)) /\
     (exists j, (j < n)%nat /\ (pl j = XF (p j + a * dp j) \/ pu j = XF (p j + a * dp j)) /\
        forall b, a < b -> ~ within (pl j) (pu j) (p j + b * dp j))).
Proof. exact largestStep_exact. Qed.
Print Assumptions C11_largestStep_bounded.

(** stepUpToBounds computes the same number (its last branch is dead for a
    feasible p), so the statement above holds for it too. *)
Theorem C11_stepUpToBounds : forall n (p dp : nat -> R) (pl pu : nat -> xreal),
  feasible n p pl pu ->
  stepUpToBounds n (fun i => XF (p i)) (fun i => XF (dp i)) pl pu =
  largestStep n (fun i => XF (p i)) (fun i => XF (dp i)) pl pu.
Proof. exact stepUpToBounds_eq. Qed.
Print Assumptions C11_stepUpToBounds.

(** The version for the bound zero: for a strictly positive p, +inf when no
    component decreases, else the largest step that keeps every entry
    nonnegative. *)
Theorem C11_largestStep_zero_bound : forall n (p dp : nat -> R),
  (forall i, (i < n)%nat -> 0 < p i) ->
  let alpha := largestStep2 n (fun i => XF (p i)) (fun i => XF (dp i)) in
  (alpha = XPInf /\ forall i, (i < n)%nat -> 0 <= dp i) \/
  (exists a, alpha = XF a /\ 0 < a /\
     is_maximum (fun b => forall i, (i < n)%nat -> 0 <= p i + b * dp i) a /\
     exists j, (j < n)%nat /\ p j + a * dp j = 0).
Proof. exact largestStep2_exact. Qed.
Print Assumptions C11_largestStep_zero_bound.

(** An entry already at zero that decreases is ignored: for p = 0, dp = -1 the
    "largest step" is +inf. *)
Theorem C11_largestStep_zero_entry_refuted : exists n (p dp : nat -> R),
  (forall i, (i < n)%nat -> 0 <= p i) /\
  largestStep2 n (fun i => XF (p i)) (fun i => XF (dp i)) = XPInf /\
  exists i, (i < n)%nat /\ p i + dp i < 0.
Proof.
  exists 1%nat, (fun _ => 0), (fun _ => -1). split; [intros; lra|]. split.
  - unfold largestStep2, largestStep2_iter, ngtb, nzero. cbn [fold_left seq ndiv nopp nltb nofZ Num_xreal xopp].
    rewrite xdiv_XF by lra. simpl. replace (rltb 0 (-0 / -1)) with false; [reflexivity|].
    symmetry. apply rltb_false. unfold Rdiv. rewrite Ropp_0, Rmult_0_l. lra.
  - exists 0%nat. split; [lia|lra].
Qed.
Print Assumptions C11_largestStep_zero_entry_refuted.

Example C11_case :
  largestStep 2 (z64 [1; 3]%Z) (z64 [2; -6]%Z) (z64 [0; 0]%Z) (fun _ => @ninf spec_float _)
  = ndiv (nofZ 1) (nofZ 2) /\
  stepUpToBounds 2 (z64 [1; 3]%Z) (z64 [2; 6]%Z) (z64 [0; 0]%Z) (fun _ => @ninf spec_float _) = ninf.
Proof. split; reflexivity. Qed.

(** ** C12 *)
Theorem C12_fractionToTheBoundary : forall n (p dp : nat -> R) (tau : R),
  0 < tau < 1 -> (forall i, (i < n)%nat -> 0 < p i) ->
  let '(a, ilim) := fractionToTheBoundary n p dp tau in
  is_maximum (fun a => 0 < a <= 1 /\ forall i, (i < n)%nat -> (1 - tau) * p i <= p i + a * dp i) a /\
  ((ilim = n /\ a = 1) \/ ((ilim < n)%nat /\ a < 1 /\ p ilim + a * dp ilim = (1 - tau) * p ilim)).
Proof. exact fraction_exact. Qed.
Print Assumptions C12_fractionToTheBoundary.

Theorem C12_fractionToTheBoundary_constraints : forall m n (p dp : nat -> R) (C : nat -> nat -> R) (r : nat -> R) tau,
  let row i y := Rsum n (fun k => C i k * y k) in
  0 < tau < 1 -> (forall i, (i < m)%nat -> r i < row i p) ->
  is_maximum (fun a => 0 < a <= 1 /\ forall i, (i < m)%nat ->
      (1 - tau) * (row i p - r i) <= row i (fun k => p k + a * dp k) - r i)
    (fractionToTheBoundaryC m n p dp C r tau).
Proof. exact fractionC_exact. Qed.
Print Assumptions C12_fractionToTheBoundary_constraints.

Theorem C12_fractionToTheLowerBoundary : forall n (p dp lower : nat -> R) tau,
  0 < tau < 1 -> (forall i, (i < n)%nat -> lower i < p i) ->
  is_maximum (fun a => 0 < a <= 1 /\ forall i, (i < n)%nat ->
      (1 - tau) * (p i - lower i) <= (p i + a * dp i) - lower i)
    (fractionToTheLowerBoundary n p dp lower tau).
Proof. exact fractionLower_exact. Qed.
Print Assumptions C12_fractionToTheLowerBoundary.

(** tau = 1/2, p = (4,6), dp = (-1,-12): the second entry limits the step to 1/4. *)
Example C12_case :
  fractionToTheBoundary 2 (z64 [4; 6]%Z) (z64 [-1; -12]%Z) (ndiv (nofZ 1) (nofZ 2))
  = (ndiv (nofZ 1) (nofZ 4), 1%nat).
Proof. reflexivity. Qed.
