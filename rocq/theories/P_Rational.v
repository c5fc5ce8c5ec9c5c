(** Property theorems C16-C18: rational, rationalize. *)
From Coq Require Import List Arith Bool ZArith Reals Lra Lia.
From Coq Require Import Floats.SpecFloat.
Import ListNotations.
From Verif Require Import Num Index_spec Step_proofs Rational_model Rational_proofs.
Local Open Scope R_scope.

(** ** C16: a fraction in lowest terms (of either sign, above or below one) whose
    numerator and denominator are within the limit is recovered exactly, after at
    most 2n passes of the loop (the fuel). *)
Theorem C16_rational_recovers : forall fuel (p q n : Z),
  (1 <= q <= n)%Z -> (Z.abs p <= n)%Z -> Z.gcd p q = 1%Z -> (2 * n <= Z.of_nat fuel)%Z ->
  rational fuel (IZR p / IZR q) n = Some (p, q).
Proof. exact rational_exact. Qed.
Print Assumptions C16_rational_recovers.

(** The loop ends within 2n passes for every argument in every arithmetic (NaN
    included), and its 64-bit integers do not overflow when n is an unsigned int. *)
Theorem C16_farey_terminates : forall T (N : Num T) fuel (x : T) (n : Z),
  (0 <= n)%Z -> (2 * n <= Z.of_nat fuel)%Z -> exists a b, farey fuel x n = Some (a, b).
Proof.
  intros T N fuel x n Hn Hf. destruct (farey fuel x n) as [[a b]|] eqn:E; [eauto|].
  exfalso. revert E. apply farey_ends; assumption.
Qed.
Print Assumptions C16_farey_terminates.

Theorem C16_no_overflow : forall T (N : Num T) fuel (x : T) (n : Z),
  (n < 2 ^ 32)%Z -> farey_checked fuel x n <> Some None.
Proof.
  intros T N fuel x n Hn. rewrite farey_checked_eq by lia. destruct (farey fuel x n); discriminate.
Qed.
Print Assumptions C16_no_overflow.

Example C16_case : rational 200 (IZR (-22) / IZR 7) 100 = Some (-22, 7)%Z.
Proof. apply C16_rational_recovers; simpl; lia || reflexivity. Qed.
(** the same in binary64 *)
Example C16_case_b64 :
  rational 200 (@ndiv spec_float _ (nofZ (-22)) (nofZ 7)) 100 = Some (-22, 7)%Z.
Proof. vm_compute. reflexivity. Qed.

(** ** C17: valid for every x below maxden+1 ... *)
Theorem C17_rational_denominator_partial : forall fuel (x : R) (n a b : Z),
  (1 <= n)%Z -> rational fuel x n = Some (a, b) -> Rabs x < IZR n + 1 ->
  (1 <= b <= n)%Z /\ Z.gcd a b = 1%Z.
Proof. exact rational_denominator. Qed.
Print Assumptions C17_rational_denominator_partial.

(** ... in any arithmetic, in particular binary64, for every x that does not
    compare greater than one (NaN included) ... *)
Theorem C17_rational_denominator_small : forall T (N : Num T) fuel (x : T) (n a b : Z),
  (1 <= n)%Z -> ngtb (nabs x) none1 = false -> rational fuel x n = Some (a, b) ->
  (1 <= b <= n)%Z /\ (Z.abs a <= b)%Z.
Proof. intros T N. exact (@rational_denominator_any T N). Qed.
Print Assumptions C17_rational_denominator_small.

(** ... and never valid above it: the denominator is zero for every x with
    |x| > maxden+1, so rationalize writes an infinity there. *)
Theorem C17_rational_denominator_refuted : forall fuel (x : R) (n : Z),
  (1 <= n)%Z -> (2 * n <= Z.of_nat fuel)%Z -> IZR n + 1 < Rabs x ->
  exists s, (s = 1 \/ s = -1)%Z /\ rational fuel x n = Some (s, 0%Z).
Proof. exact rational_zero_denominator. Qed.
Print Assumptions C17_rational_denominator_refuted.

Example C17_case : Rabs (5 / 2) < IZR 10 + 1 /\ IZR 10 + 1 < Rabs (-12).
Proof. split; [rewrite Rabs_right; lra|rewrite Rabs_left; lra]. Qed.
Example C17_refuted_b64 : rationalize 20 [@nofZ spec_float _ 12] 10 = Some [ninf].
Proof. vm_compute. reflexivity. Qed.

(** ** C18: the result is within 1/(b(n+1)) of x, and it is the closest among the
    fractions on its own side of x ... *)
Theorem C18_rational_close_partial : forall fuel (x : R) (n a b : Z),
  (1 <= n)%Z -> Rabs x <= 1 -> rational fuel x n = Some (a, b) ->
  Rabs (x - IZR a / IZR b) <= / (IZR b * (IZR n + 1)) /\
  (forall a' b' : Z, (1 <= b' <= n)%Z ->
     ~ (x < IZR a' / IZR b' < IZR a / IZR b) /\ ~ (IZR a / IZR b < IZR a' / IZR b' < x)).
Proof. exact rational_near. Qed.
Print Assumptions C18_rational_close_partial.

Theorem C18_rational_close_large_partial : forall fuel (x : R) (n a b : Z),
  (1 <= n)%Z -> 1 < Rabs x < IZR n + 1 -> rational fuel x n = Some (a, b) ->
  Rabs (x - IZR a / IZR b) <= Rabs x / (IZR b * (IZR n + 1)).
Proof. exact rational_near_large. Qed.
Print Assumptions C18_rational_close_large_partial.

(** ... but not the closest of all: 0.41 with denominators up to 4 gives 1/2 although
    1/3 is closer. *)
Theorem C18_rational_closest_refuted : exists fuel (x : R) (n a b a' b' : Z),
  rational fuel x n = Some (a, b) /\ (1 <= b' <= n)%Z /\
  Rabs (x - IZR a' / IZR b') < Rabs (x - IZR a / IZR b).
Proof.
  exists 8%nat, (41 / 100), 4%Z, 1%Z, 2%Z, 1%Z, 3%Z. split; [|split; [lia|]].
  - rewrite rational_small by (rewrite Rabs_right; lra). rewrite Rabs_right by lra. unfold farey.
    rewrite farey_loop_step by lia. unfold frac. cbn [Z.add Pos.add Pos.succ].
    destruct (Req_EM_T _ _); [lra|]. destruct (Rlt_dec _ _); [lra|].
    rewrite farey_loop_step by lia. unfold frac. cbn [Z.add Pos.add Pos.succ].
    destruct (Req_EM_T _ _); [lra|]. destruct (Rlt_dec _ _); [|lra].
    rewrite farey_loop_step by lia. unfold frac. cbn [Z.add Pos.add Pos.succ].
    destruct (Req_EM_T _ _); [lra|]. destruct (Rlt_dec _ _); [|lra].
    rewrite farey_loop_exit by lia. destruct (Rle_dec 0 (41 / 100)); [reflexivity|lra].
  - rewrite (Rabs_right (41 / 100 - 1 / 3)), (Rabs_left (41 / 100 - 1 / 2)) by lra. lra.
Qed.
Print Assumptions C18_rational_closest_refuted.

(** rationalize applies rational to every entry. *)
Theorem C17_rationalize_entrywise : forall T (N : Num T) fuel maxden (data r : list T),
  rationalize fuel data maxden = Some r ->
  Forall2 (fun x y => exists a b, rational fuel x maxden = Some (a, b) /\ y = ndiv (nofZ a) (nofZ b)) data r.
Proof. intros T N. exact (@rationalize_entries T N). Qed.
Print Assumptions C17_rationalize_entrywise.
