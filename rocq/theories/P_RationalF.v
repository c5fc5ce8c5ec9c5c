(** Property theorems C102: rational and rationalize on doubles with rounding errors. *)
From Coq Require Import Reals ZArith List Bool Lia Lra.
From Coq Require Import Floats.SpecFloat.
From Flocq Require Import Core.
From Verif Require Import Num Rational_model Round_spec Float_proofs FResidual_proofs RationalF_proofs.
Import ListNotations.
Local Open Scope R_scope.

(** The double x is close to p/q: within 1/(8 n^2), relative for numbers above one. *)
Definition close_to (n : Z) (x : spec_float) (p q : Z) : Prop :=
  isfin x /\ Rabs (V x - IZR p / IZR q) <= Rmax 1 (Rabs (V x)) / (8 * (IZR n * IZR n)).

(** ** With n up to 2^25: from every double close to a fraction in lowest terms with numerator and
    denominator up to n, rational recovers that fraction (fuel 2n: the passes of its loop). *)
Theorem C102_rational : forall fuel x (n p q : Z),
  (1 <= q <= n)%Z -> (Z.abs p <= n)%Z -> Z.gcd p q = 1%Z -> (n <= 2 ^ 25)%Z -> (2 * n <= Z.of_nat fuel)%Z ->
  close_to n x p q -> rational fuel x n = Some (p, q).
Proof. intros fuel x n p q Hq Hp Hg Hn Hf [F C]. now apply rational_b64. Qed.
Print Assumptions C102_rational.

(** ** The double nearest to the fraction is close enough for n up to 2^24. *)
Lemma rounded_close (n p q : Z) : (1 <= q <= n)%Z -> (Z.abs p <= n)%Z -> (n <= 2 ^ 24)%Z ->
  close_to n (ndiv (nofZ p) (nofZ q)) p q /\ V (ndiv (nofZ p) (nofZ q)) = rnd (IZR p / IZR q).
Proof.
  intros Hq Hp Hn.
  destruct (ofZ_V p ltac:(lia)) as [Fp Ep]. destruct (ofZ_V q ltac:(lia)) as [Fq Eq].
  assert (Q : 1 <= IZR q <= IZR n) by (split; apply IZR_le; lia).
  assert (P : Rabs (IZR p) <= IZR n) by (rewrite <- abs_IZR; apply IZR_le; lia).
  assert (N : 1 <= IZR n <= IZR (2 ^ 24)) by (split; apply IZR_le; lia).
  change (IZR (2 ^ 24)) with 16777216 in N.
  set (y := IZR p / IZR q).
  assert (Iq : 0 < / IZR q <= 1).
  { split; [apply Rinv_0_lt_compat; lra|]. apply Rmult_le_reg_r with (IZR q); [lra|]. rewrite Rinv_l by lra. lra. }
  assert (Y : Rabs y <= 16777216).
  { unfold y, Rdiv. rewrite Rabs_mult, (Rabs_pos_eq (/ IZR q)) by lra. pose proof (Rabs_pos (IZR p)). nra. }
  destruct (fdiv _ _ Fp Fq) as [F E].
  { rewrite Eq. apply Rgt_not_eq. lra. }
  { rewrite Ep, Eq. apply Rle_trans with (1 := Y). change 16777216 with (bpow radix2 24). now apply bpow_le. }
  rewrite Ep, Eq in E. fold y in E.
  split; [|exact E]. split; [exact F|]. fold y. rewrite E.
  destruct (rnd_err y) as (d & e & Hd & He & R). rewrite R.
  replace (y * (1 + d) + e - y) with (y * d + e) by ring.
  assert (U : u64 = / 9007199254740992) by reflexivity.
  assert (T : eta64 <= / 9007199254740992).
  { unfold eta64. apply Rle_trans with (bpow radix2 (-53)); [now apply bpow_le|]. apply Rle_refl. }
  assert (T2 : eta64 <= / 1152921504606846976).
  { unfold eta64. apply Rle_trans with (bpow radix2 (-60)); [now apply bpow_le|]. apply Rle_refl. }
  assert (I : / (8 * (16777216 * 16777216)) <= / (8 * (IZR n * IZR n))) by (apply Rinv_le; nra).
  set (i := / (8 * (IZR n * IZR n))) in *.
  assert (A1 : Rabs (y * d + e) <= Rabs y * / 9007199254740992 + / 1152921504606846976).
  { apply Rle_trans with (1 := Rabs_triang _ _). rewrite Rabs_mult. pose proof (Rabs_pos y). pose proof (Rabs_pos d). nra. }
  assert (A2 : Rabs y <= 2 * Rmax 1 (Rabs (y * (1 + d) + e))).
  { assert (Rabs y <= Rabs (y * (1 + d) + e) + Rabs (y * d + e)).
    { replace y with ((y * (1 + d) + e) - (y * d + e)) at 1 by ring. unfold Rminus.
      apply Rle_trans with (1 := Rabs_triang _ _). rewrite Rabs_Ropp. lra. }
    pose proof (Rmax_l 1 (Rabs (y * (1 + d) + e))). pose proof (Rmax_r 1 (Rabs (y * (1 + d) + e))).
    pose proof (Rabs_pos y). lra. }
  pose proof (Rmax_l 1 (Rabs (y * (1 + d) + e))) as M.
  unfold Rdiv. fold i. set (m := Rmax 1 (Rabs (y * (1 + d) + e))) in *. nra.
Qed.
Theorem C102_rounded : forall fuel (n p q : Z),
  (1 <= q <= n)%Z -> (Z.abs p <= n)%Z -> Z.gcd p q = 1%Z -> (n <= 2 ^ 24)%Z -> (2 * n <= Z.of_nat fuel)%Z ->
  V (ndiv (nofZ p) (nofZ q)) = rnd (IZR p / IZR q) /\
  rational fuel (ndiv (nofZ p) (nofZ q) : spec_float) n = Some (p, q).
Proof.
  intros fuel n p q Hq Hp Hg Hn Hf. destruct (rounded_close n p q Hq Hp Hn) as [C E].
  split; [exact E|]. apply C102_rational; try assumption. lia.
Qed.
Print Assumptions C102_rounded.

(** ** rationalize replaces entries that are close to fractions by the doubles nearest to them,
    and leaves those unchanged. *)
Definition fraction_of (n : Z) (f : Z * Z) : Prop :=
  (1 <= snd f <= n)%Z /\ (Z.abs (fst f) <= n)%Z /\ Z.gcd (fst f) (snd f) = 1%Z.
Definition nearest (f : Z * Z) : spec_float := ndiv (nofZ (fst f)) (nofZ (snd f)).
Theorem C102_rationalize : forall fuel (n : Z) data (fractions : list (Z * Z)),
  (n <= 2 ^ 24)%Z -> (2 * n <= Z.of_nat fuel)%Z -> Forall (fraction_of n) fractions ->
  Forall2 (fun x f => close_to n x (fst f) (snd f)) data fractions ->
  rationalize fuel data n = Some (map nearest fractions) /\
  rationalize fuel (map nearest fractions) n = Some (map nearest fractions) /\
  Forall (fun f => V (nearest f) = rnd (IZR (fst f) / IZR (snd f))) fractions.
Proof.
  intros fuel n data fractions Hn Hf HF H.
  assert (G : forall d fs, Forall (fraction_of n) fs -> Forall2 (fun x f => close_to n x (fst f) (snd f)) d fs ->
    rationalize fuel d n = Some (map nearest fs)).
  { intros d fs K K2. induction K2 as [|x f d fs C _ IH]; [reflexivity|].
    inversion K as [|? ? [Hq [Hp Hg]] K']; subst. cbn [rationalize map]. unfold rationalize_entry.
    rewrite (C102_rational fuel x n (fst f) (snd f)) by (try assumption; lia).
    rewrite (IH K'). reflexivity. }
  split; [now apply G|]. split; [apply G; [exact HF|]|].
  - clear H. induction HF as [|f fs [Hq [Hp Hg]] _ IH]; [constructor|]. constructor; [|exact IH].
    now apply rounded_close.
  - clear H. induction HF as [|f fs [Hq [Hp Hg]] _ IH]; [constructor|]. constructor; [|exact IH].
    now apply (rounded_close n).
Qed.
Print Assumptions C102_rationalize.

(** ** Not so for larger n (n is an unsigned, up to 2^32 - 1): the double nearest to the fraction
    102334155/165580141 is also the computed value of an earlier mediant, which is returned. *)
Theorem C102_large_refuted : exists fuel (n p q a b : Z),
  (n < 2 ^ 28)%Z /\ (1 <= q <= n)%Z /\ (Z.abs p <= n)%Z /\ Z.gcd p q = 1%Z /\
  V (ndiv (nofZ p) (nofZ q)) = rnd (IZR p / IZR q) /\
  rational fuel (ndiv (nofZ p) (nofZ q) : spec_float) n = Some (a, b) /\ b <> q.
Proof.
  exists 60%nat, 165580141%Z, 102334155%Z, 165580141%Z, 39088169%Z, 63245986%Z.
  split; [lia|]. split; [lia|]. split; [lia|]. split; [reflexivity|].
  split; [apply (quot_V 102334155 165580141); lia|].
  split; [vm_compute; reflexivity|]. lia.
Qed.
Print Assumptions C102_large_refuted.

(** ** A case: -22/7 recovered from -25743/8192 = -3.14245... with n = 22 *)
Example C102_case : exists x, V x = - 25743 / 8192 /\ close_to 22 x (-22) 7 /\ V x <> - 22 / 7 /\
  rational 44 x 22 = Some (-22, 7)%Z.
Proof.
  assert (E : (ndiv (nofZ (-25743)) (nofZ 8192) : spec_float) = S754_finite true 7076181958459392 (-51)) by (vm_compute; reflexivity).
  exists (ndiv (nofZ (-25743)) (nofZ 8192)).
  assert (W : V (ndiv (nofZ (-25743)) (nofZ 8192)) = - 25743 / 8192).
  { rewrite E. unfold V, BinarySingleNaN.SF2R, Defs.F2R. cbn. lra. }
  assert (F : isfin (ndiv (nofZ (-25743)) (nofZ 8192))) by (split; vm_compute; reflexivity).
  assert (C : close_to 22 (ndiv (nofZ (-25743)) (nofZ 8192)) (-22) 7).
  { split; [exact F|]. rewrite W. rewrite (Rabs_left (- 25743 / 8192)) by lra. rewrite Rmax_right by lra.
    apply Rabs_le. lra. }
  split; [exact W|]. split; [exact C|]. split; [rewrite W; lra|].
  apply C102_rational; try lia; [reflexivity|exact C].
Qed.
