(** Property theorems C97: the one-dimensional minimisers in double precision. *)
From Coq Require Import Reals ZArith List Bool Lia Lra.
From Coq Require Import Floats.SpecFloat.
From Flocq Require Import Core.
From Verif Require Import Num Minimize_model Round_spec Float_proofs Minimize_proofs FMinimize_proofs.
Import ListNotations.
Local Open Scope R_scope.

(** ** minimizeBrent: for every function whose values on [lo,hi] are numbers of at most 2^400
    in magnitude, every interval with ends of at most 2^200, every tolerance from 2^-40 to 2^100
    and every iteration budget, all points where the function is evaluated are numbers of the
    interval, the result is one of them, and no evaluated value is smaller than that of the
    result. *)
Theorem C97_brent : forall (f : spec_float -> spec_float) fuel lo hi tol maxiters r evals,
  upto 200 lo -> upto 200 hi -> V lo <= V hi ->
  upto 100 tol -> bpow radix2 (-40) <= V tol ->
  (forall x, isfin x -> V lo <= V x <= V hi -> upto 400 (f x)) ->
  minimizeBrent f fuel lo hi tol maxiters = Some (r, evals) ->
  In r evals /\ In hi evals /\
  forall e, In e evals -> isfin e /\ V lo <= V e <= V hi /\ V (f r) <= V (f e).
Proof.
  intros f fuel lo hi tol maxiters r evals Bl Bh O Bt Lt Bf E.
  exact (brent_b64 f lo hi tol Bl Bh O Bt Lt Bf fuel maxiters r evals E).
Qed.
Print Assumptions C97_brent.

(** ** minimizeGoldenSectionSearch: for every function (even one that returns infinities or NaN),
    every interval with ends of at most 2^1020 and every tolerance of at least 2e-12, the search
    ends, after at most 66 evaluations; all evaluated points and the result are numbers of the
    interval. *)
Theorem C97_golden : forall (f : spec_float -> spec_float) fuel a b tol,
  upto 1020 a -> upto 1020 b -> V a <= V b ->
  isfin tol -> 2 / 1000000000000 <= V tol -> (64 <= fuel)%nat ->
  exists r evals, minimizeGoldenSectionSearch f fuel a b tol = Some (r, evals) /\ (length evals <= 66)%nat /\
    forall x, In x (r :: evals) -> isfin x /\ V a <= V x <= V b.
Proof. exact golden_b64. Qed.
Print Assumptions C97_golden.

(** ** Without the bounds on the ends the claims fail: the midpoint of two large numbers
    overflows, and Brent's method steps out of the interval; its result is not in it. *)
Definition big (m : Z) : spec_float := nmul (nofZ m) (S754_finite false 4503599627370496 (1014 - 52)).
Theorem C97_brent_overflow_refuted : exists (f : spec_float -> spec_float) lo hi tol r evals,
  isfin lo /\ isfin hi /\ V lo < V hi /\ isfin tol /\ V tol = 1 / 8 /\
  minimizeBrent f 10 lo hi tol 3 = Some (r, evals) /\ isfin r /\ V r < V lo.
Proof.
  exists (fun x => x), (big 950), (big 960), (ndiv (nofZ 1) (nofZ 8)). eexists. eexists.
  assert (F1 : isfin (big 950)) by (split; vm_compute; reflexivity).
  assert (F2 : isfin (big 960)) by (split; vm_compute; reflexivity).
  split; [exact F1|]. split; [exact F2|].
  split; [apply ltb_true; [exact F1|exact F2|vm_compute; reflexivity]|].
  split; [split; vm_compute; reflexivity|].
  split.
  { assert (E : ndiv (nofZ 1) (nofZ 8) = S754_finite false 4503599627370496 (-55)) by (vm_compute; reflexivity).
    rewrite E. unfold V, BinarySingleNaN.SF2R, Defs.F2R. cbn. lra. }
  split; [vm_compute; reflexivity|].
  match goal with |- isfin ?x /\ _ => assert (F : isfin x) by (split; vm_compute; reflexivity) end.
  split; [exact F|]. apply ltb_true; [exact F|exact F1|vm_compute; reflexivity].
Qed.
Print Assumptions C97_brent_overflow_refuted.

(** the width of [-b,b] overflows: golden section returns an infinite point *)
Theorem C97_golden_overflow_refuted : exists (f : spec_float -> spec_float) a b tol r evals,
  isfin a /\ isfin b /\ V a < V b /\ isfin tol /\ 1 / 10 <= V tol /\
  minimizeGoldenSectionSearch f 64 a b tol = Some (r, evals) /\ r = S754_infinity false.
Proof.
  exists (fun x => x), (big (-900)), (big 900), (ndiv (nofZ 1) (nofZ 8)). eexists. eexists.
  assert (F1 : isfin (big (-900))) by (split; vm_compute; reflexivity).
  assert (F2 : isfin (big 900)) by (split; vm_compute; reflexivity).
  split; [exact F1|]. split; [exact F2|].
  split; [apply ltb_true; [exact F1|exact F2|vm_compute; reflexivity]|].
  split; [split; vm_compute; reflexivity|].
  split.
  { assert (E : ndiv (nofZ 1) (nofZ 8) = S754_finite false 4503599627370496 (-55)) by (vm_compute; reflexivity).
    rewrite E. unfold V, BinarySingleNaN.SF2R, Defs.F2R. cbn. lra. }
  split; [vm_compute; reflexivity|]. vm_compute. reflexivity.
Qed.
Print Assumptions C97_golden_overflow_refuted.

(** ** Without the bound on the function values the claims fail, on a small interval too: a step
    function with values of about 2^1023 on [-1,8].  Their differences overflow, the parabola's
    step is NaN, and the search then steps left by its tolerance, out of the interval; its result
    is not in it. *)
Definition level (k : Z) : spec_float := nmul (nofZ k) (S754_finite false 4503599627370496 (1010 - 52)).
Definition steps97 (x : spec_float) : spec_float :=
  if nltb x (nofZ (-1)) then level (-15900)
  else if nltb (nmul (nofZ 2) x) (nofZ (-1)) then level (-15500)
  else if nltb x (nofZ 1) then level 3759
  else if nltb x (nofZ 4) then level 3915
  else if nltb x (nofZ 6) then level 4193 else level 5000.
Lemma steps97_fin x : isfin (steps97 x).
Proof.
  unfold steps97.
  destruct (nltb x (nofZ (-1))); [|destruct (nltb (nmul (nofZ 2) x) (nofZ (-1))); [|destruct (nltb x (nofZ 1)); [|destruct (nltb x (nofZ 4)); [|destruct (nltb x (nofZ 6))]]]];
  split; vm_compute; reflexivity.
Qed.
Theorem C97_brent_values_refuted : exists (f : spec_float -> spec_float) lo hi tol r evals,
  V lo = -1 /\ V hi = 8 /\ isfin lo /\ isfin hi /\ isfin tol /\ V tol = 1 / 16 /\
  (forall x, isfin (f x)) /\
  minimizeBrent f 10 lo hi tol 5 = Some (r, evals) /\ isfin r /\ V r < V lo.
Proof.
  exists steps97, (nofZ (-1)), (nofZ 8), (ndiv (nofZ 1) (nofZ 16)). eexists. eexists.
  split; [unfold V; cbn; unfold Defs.F2R; cbn; lra|].
  split; [unfold V; cbn; unfold Defs.F2R; cbn; lra|].
  assert (F1 : isfin (nofZ (-1))) by (split; vm_compute; reflexivity).
  split; [exact F1|].
  split; [split; vm_compute; reflexivity|].
  split; [split; vm_compute; reflexivity|].
  split.
  { assert (E : ndiv (nofZ 1) (nofZ 16) = S754_finite false 4503599627370496 (-56)) by (vm_compute; reflexivity).
    rewrite E. unfold V, BinarySingleNaN.SF2R, Defs.F2R. cbn. lra. }
  split; [exact steps97_fin|].
  split; [vm_compute; reflexivity|].
  match goal with |- isfin ?x /\ _ => assert (F : isfin x) by (split; vm_compute; reflexivity) end.
  split; [exact F|]. apply ltb_true; [exact F|exact F1|vm_compute; reflexivity].
Qed.
Print Assumptions C97_brent_values_refuted.

(** ** A function that is NaN at the right end only: no value ever compares as smaller, and for
    every function, interval, tolerance and budget the result is the right end, where the
    function has no value, whatever smaller values were evaluated. *)
Lemma nan_step f tol (s : br_state (T := spec_float)) : br_fx s = S754_nan ->
  br_x (br_step f tol s) = br_x s /\ br_fx (br_step f tol s) = S754_nan.
Proof.
  intros E. unfold br_step. destruct (br_delta_new tol s) as [d d2]. cbv zeta.
  assert (N : nleb (f (br_u tol s)) (br_fx s) = false).
  { rewrite E. destruct (f (br_u tol s)) as [?|?| |? ? ?]; reflexivity. }
  rewrite N.
  destruct (_ || _)%bool; [split; [reflexivity|exact E]|].
  destruct (_ || _)%bool; split; try reflexivity; exact E.
Qed.
Theorem C97_brent_nan : forall (f : spec_float -> spec_float) fuel lo hi tol maxiters r evals,
  f hi = S754_nan -> minimizeBrent f fuel lo hi tol maxiters = Some (r, evals) -> r = hi.
Proof.
  intros f fuel lo hi tol maxiters r evals Nan E. unfold minimizeBrent in E.
  destruct (br_loop f fuel tol maxiters (br_init f lo hi)) as [s|] eqn:L; [|discriminate].
  injection E as <- _.
  assert (G : forall n count s0, br_x s0 = hi -> br_fx s0 = S754_nan ->
    br_loop f n tol count s0 = Some s -> br_x s = hi).
  { induction n as [|n IH]; intros count s0 X F R; [discriminate|].
    cbn [br_loop] in R. destruct (br_done tol s0); [injection R as <-; exact X|].
    destruct (nan_step f tol s0 F) as [X1 F1].
    destruct (Z.eqb (dec32 count) 0); [injection R as <-; rewrite X1; exact X|].
    apply (IH _ _ (eq_trans X1 X) F1 R). }
  exact (G fuel maxiters (br_init f lo hi) eq_refl Nan L).
Qed.
Print Assumptions C97_brent_nan.

(** x * x on [-1,2] with a NaN at 2: the result is 2, although smaller values were evaluated *)
Definition hole97 (x : spec_float) : spec_float := if neqb x (nofZ 2) then S754_nan else nmul x x.
Theorem C97_brent_nan_refuted : exists lo hi tol r evals,
  hole97 hi = S754_nan /\
  minimizeBrent hole97 100 lo hi tol 50 = Some (r, evals) /\ r = hi /\
  exists e, In e evals /\ isfin (hole97 e) /\ V (hole97 e) < 1.
Proof.
  exists (nofZ (-1)), (nofZ 2), (ndiv (nofZ 1) (nofZ 1024)). eexists. eexists.
  split; [vm_compute; reflexivity|].
  split; [vm_compute; reflexivity|].
  split; [vm_compute; reflexivity|].
  eexists. split; [right; left; reflexivity|].
  match goal with |- isfin ?x /\ _ => assert (F : isfin x) by (split; vm_compute; reflexivity) end.
  split; [exact F|].
  assert (E1 : V (nofZ 1) = 1) by (unfold V; cbn; unfold Defs.F2R; cbn; lra).
  rewrite <- E1. apply ltb_true; [exact F|split; vm_compute; reflexivity|vm_compute; reflexivity].
Qed.
Print Assumptions C97_brent_nan_refuted.

(** ** A case: f(x) = x * x on [-1,2], tolerance 1/1024 *)
Lemma sq_bound x : isfin x -> -1 <= V x <= 2 -> upto 400 (nmul x x).
Proof.
  intros F B. assert (U : upto 1 x) by (split; [exact F|change (bpow radix2 1) with 2; apply Rabs_le; lra]).
  destruct (mulB 1 1 x x ltac:(lia) U U) as [R _]. apply (upto_le 2); [lia|exact R].
Qed.
Example C97_brent_case : exists lo hi tol r evals,
  upto 200 lo /\ upto 200 hi /\ V lo <= V hi /\ upto 100 tol /\ bpow radix2 (-40) <= V tol /\
  (forall x, isfin x -> V lo <= V x <= V hi -> upto 400 (nmul x x)) /\
  minimizeBrent (fun x => nmul x x) 100 lo hi tol 50 = Some (r, evals) /\ (length evals > 5)%nat.
Proof.
  exists (nofZ (-1)), (nofZ 2), (ndiv (nofZ 1) (nofZ 1024)). eexists. eexists.
  assert (E1 : V (nofZ (-1)) = -1) by (unfold V; cbn; unfold Defs.F2R; cbn; lra).
  assert (E2 : V (nofZ 2) = 2) by exact two_V.
  assert (E3 : V (ndiv (nofZ 1) (nofZ 1024)) = / 1024).
  { assert (E : ndiv (nofZ 1) (nofZ 1024) = S754_finite false 4503599627370496 (-62)) by (vm_compute; reflexivity).
    rewrite E. unfold V, BinarySingleNaN.SF2R, Defs.F2R. cbn. lra. }
  assert (K : forall e, (1 <= e)%Z -> 2 <= bpow radix2 e).
  { intros e He. change 2 with (bpow radix2 1). now apply bpow_le. }
  split; [split; [split; vm_compute; reflexivity|rewrite E1; pose proof (K 200%Z ltac:(lia)); apply Rabs_le; lra]|].
  split; [split; [split; vm_compute; reflexivity|rewrite E2; pose proof (K 200%Z ltac:(lia)); apply Rabs_le; lra]|].
  split; [lra|].
  split; [split; [split; vm_compute; reflexivity|rewrite E3; pose proof (K 100%Z ltac:(lia)); apply Rabs_le; lra]|].
  split; [rewrite E3; cbn; lra|].
  split; [intros x F B; apply sq_bound; [exact F|lra]|].
  split; [vm_compute; reflexivity|]. cbn. lia.
Qed.
