(** Proofs about the removal of small entries in binary64. *)
From Coq Require Import Reals ZArith List Arith Bool Lia Lra.
From Coq Require Import Floats.SpecFloat.
From Flocq Require Import Core BinarySingleNaN.
From Verif Require Import Num Index_proofs Step_proofs MatUtil_model MatUtil_spec MatUtil_proofs Round_spec Float_proofs Round_proofs FSum_spec FSum_proofs FResidual_proofs RationalF_proofs.
Import ListNotations.
Local Open Scope R_scope.

(* ---------- the largest entry ---------- *)
Lemma nmax_V a b : isfin a -> isfin b -> isfin (nmax a b) /\ V (nmax a b) = nmax (V a) (V b).
Proof. intros Fa Fb. unfold nmax. rewrite fltb by assumption. cbn [nltb Num_R]. destruct (rltb (V a) (V b)); auto. Qed.

Lemma maxAbs2_V m n (A : nat -> nat -> spec_float) : (0 < m)%nat -> (0 < n)%nat ->
  (forall i j, (i < m)%nat -> (j < n)%nat -> isfin (A i j)) ->
  isfin (maxAbs2 m n A) /\ V (maxAbs2 m n A) = maxAbs2 m n (fun i j => V (A i j)).
Proof.
  intros Hm Hn F. unfold maxAbs2.
  assert (G : forall j l a b, (j < n)%nat -> (forall i, In i l -> (i < m)%nat) -> isfin a -> V a = b ->
    isfin (fold_left (fun mx i => nmax mx (nabs (A i j))) l a) /\
    V (fold_left (fun mx i => nmax mx (nabs (A i j))) l a) = fold_left (fun mx i => nmax mx (nabs (V (A i j)))) l b).
  { intros j l. induction l as [|i l IH]; intros a b Hj Hl Fa Ea; [now split|]. cbn [fold_left].
    assert (Fi : isfin (A i j)) by (apply F; [apply Hl; now left|exact Hj]).
    destruct (nmax_V a (nabs (A i j)) Fa (fin_abs' _ Fi)) as [F1 E1]. apply IH; auto.
    - intros k Hk. apply Hl. now right.
    - rewrite E1, Ea, V_abs by exact Fi. reflexivity. }
  assert (K : forall l a b, (forall j, In j l -> (j < n)%nat) -> isfin a -> V a = b ->
    isfin (fold_left (fun mx j => fold_left (fun mx i => nmax mx (nabs (A i j))) (seq 0 m) mx) l a) /\
    V (fold_left (fun mx j => fold_left (fun mx i => nmax mx (nabs (A i j))) (seq 0 m) mx) l a) =
    fold_left (fun mx j => fold_left (fun mx i => nmax mx (nabs (V (A i j)))) (seq 0 m) mx) l b).
  { induction l as [|j l IH]; intros a b Hl Fa Ea; [now split|]. cbn [fold_left].
    destruct (G j (seq 0 m) a b) as [F1 E1]; auto.
    - apply Hl. now left.
    - intros i Hi. apply in_seq in Hi. lia.
    - apply IH; auto. intros k Hk. apply Hl. now right. }
  apply K.
  - intros j Hj. apply in_seq in Hj. lia.
  - apply fin_abs', F; assumption.
  - rewrite V_abs; [reflexivity|]. now apply F.
Qed.

(* ---------- the threshold ---------- *)
Definition thr (mx : spec_float) (k : nat) : spec_float := nmul (nmul neps mx) (nofZ (Z.of_nat k)).

(** zero is representable, so rounding to nearest at most doubles *)
Lemma rnd_double x : 0 <= x -> 0 <= rnd x <= 2 * x.
Proof.
  intros Hx. split; [rewrite <- rnd_0; now apply rnd_le|].
  assert (K : Rabs (rnd x - x) <= Rabs (0 - x)).
  { unfold rnd. destruct (@round_N_pt radix2 fexp64 (fexp_correct 53 1024 eq_refl) (fun z => negb (Z.even z)) x) as [_ H]. apply H, generic_format_0. }
  replace (0 - x) with (- x) in K by ring. rewrite Rabs_Ropp, (Rabs_pos_eq x) in K by lra. pose proof (RRle_abs (rnd x - x)). lra.
Qed.

Lemma thr_ok mx k : isfin mx -> 0 <= V mx -> (0 < k)%nat -> (Z.of_nat k <= 2 ^ 49)%Z ->
  isfin (thr mx k) /\ V (thr mx k) = rnd (rnd (2 * u64 * V mx) * INR k).
Proof.
  intros F H0 Hk Hk2. destruct neps_fin as [Fe Ve]. destruct (ofZ_V (Z.of_nat k)) as [Fk Vk]; [lia|].
  pose proof (fin_bound _ F) as B. rewrite (Rabs_pos_eq (V mx)) in B by lra. pose proof u64_pos as UP.
  assert (U : 2 * u64 = bpow radix2 (-52)) by (unfold u64; change 2 with (bpow radix2 1); rewrite <- bpow_plus; reflexivity).
  assert (P : 0 <= 2 * u64 * V mx) by nra.
  assert (Q : 2 * u64 * V mx <= bpow radix2 972).
  { replace (bpow radix2 972) with (bpow radix2 (-52) * bpow radix2 1024) by (rewrite <- bpow_plus; reflexivity). rewrite U.
    apply Rmult_le_compat_l; [apply bpow_ge_0|lra]. }
  destruct (fmul neps mx Fe F) as [F1 E1].
  { rewrite Ve, Rabs_pos_eq by exact P. apply Rle_trans with (1 := Q). apply bpow_le. lia. }
  rewrite Ve in E1. pose proof (rnd_double _ P) as D1.
  assert (IK : 0 <= INR k <= bpow radix2 49).
  { split; [apply pos_INR|]. rewrite INR_IZR_INZ. change (bpow radix2 49) with (IZR (2 ^ 49)). now apply IZR_le. }
  unfold thr. destruct (fmul (nmul neps mx) (nofZ (Z.of_nat k)) F1 Fk) as [F2 E2].
  { rewrite E1, Vk, <- INR_IZR_INZ. rewrite Rabs_pos_eq by (apply Rmult_le_pos; lra).
    replace (bpow radix2 1023) with (bpow radix2 974 * bpow radix2 49) by (rewrite <- bpow_plus; reflexivity).
    apply Rmult_le_compat; try lra. apply Rle_trans with (2 * bpow radix2 972); [lra|].
    change 2 with (bpow radix2 1). rewrite <- bpow_plus. apply bpow_le. lia. }
  split; [exact F2|]. now rewrite E2, E1, Vk, <- INR_IZR_INZ.
Qed.

Lemma thr_pos mx k : isfin mx -> 0 <= V mx -> (0 < k)%nat -> (Z.of_nat k <= 2 ^ 49)%Z ->
  0 <= V (thr mx k) <= / 2 * V mx.
Proof.
  intros F H0 Hk Hk2. destruct (thr_ok mx k F H0 Hk Hk2) as [_ E]. rewrite E. pose proof u64_pos as UP.
  assert (U : 2 * u64 = bpow radix2 (-52)) by (unfold u64; change 2 with (bpow radix2 1); rewrite <- bpow_plus; reflexivity).
  assert (P : 0 <= 2 * u64 * V mx) by nra. pose proof (rnd_double _ P) as D1.
  assert (IK : 0 <= INR k <= bpow radix2 49).
  { split; [apply pos_INR|]. rewrite INR_IZR_INZ. change (bpow radix2 49) with (IZR (2 ^ 49)). now apply IZR_le. }
  assert (P2 : 0 <= rnd (2 * u64 * V mx) * INR k) by (apply Rmult_le_pos; lra). pose proof (rnd_double _ P2) as D2.
  split; [lra|]. eapply Rle_trans; [apply D2|].
  assert (rnd (2 * u64 * V mx) * INR k <= 2 * (bpow radix2 (-52) * V mx) * bpow radix2 49).
  { rewrite <- U. apply Rmult_le_compat; lra. }
  replace (2 * (bpow radix2 (-52) * V mx) * bpow radix2 49) with (2 * (bpow radix2 (-52) * bpow radix2 49) * V mx) in H by ring.
  rewrite <- bpow_plus in H. change (bpow radix2 (-52 + 49)) with (/ 8) in H. lra.
Qed.

Lemma thr_mono a b k : isfin a -> isfin b -> 0 <= V a <= V b -> (0 < k)%nat -> (Z.of_nat k <= 2 ^ 49)%Z ->
  V (thr a k) <= V (thr b k).
Proof.
  intros Fa Fb H Hk Hk2. destruct (thr_ok a k Fa ltac:(lra) Hk Hk2) as [_ ->], (thr_ok b k Fb ltac:(lra) Hk Hk2) as [_ ->].
  apply rnd_le. apply Rmult_le_compat_r; [apply pos_INR|]. apply rnd_le. pose proof u64_pos. nra.
Qed.

Lemma thr_err mx k : isfin mx -> 0 <= V mx -> (0 < k)%nat -> (Z.of_nat k <= 2 ^ 49)%Z ->
  let t := / 2 ^ 52 * V mx * INR k in Rabs (V (thr mx k) - t) <= gam 2 * t + 3 * INR k * eta64.
Proof.
  intros F H0 Hk Hk2 t. destruct (thr_ok mx k F H0 Hk Hk2) as [_ E]. rewrite E. pose proof u64_pos as UP. pose proof eta64_pos as EP. pose proof u64_val as UV.
  assert (U : 2 * u64 = / 2 ^ 52).
  { rewrite UV. field. }
  destruct (rnd_err (2 * u64 * V mx)) as (d1 & e1 & Hd1 & He1 & E1). rewrite E1.
  destruct (rnd_err ((2 * u64 * V mx * (1 + d1) + e1) * INR k)) as (d2 & e2 & Hd2 & He2 & E2). rewrite E2.
  assert (T : 0 <= t) by (unfold t; rewrite <- U; apply Rmult_le_pos; [nra|apply pos_INR]).
  replace (((2 * u64 * V mx * (1 + d1) + e1) * INR k) * (1 + d2) + e2 - t) with (t * ((1 + d1) * (1 + d2) - 1) + (e1 * INR k * (1 + d2) + e2))
    by (unfold t; rewrite <- U; ring).
  assert (K1 : 1 <= INR k) by (change 1 with (INR 1); apply le_INR; lia).
  eapply Rle_trans; [apply Rabs_triang|]. apply Rplus_le_compat.
  - rewrite Rabs_mult, (Rabs_pos_eq t), Rmult_comm by exact T. apply Rmult_le_compat_r; [exact T|].
    replace ((1 + d1) * (1 + d2) - 1) with (d1 + d2 + d1 * d2) by ring.
    assert (gam 2 = u64 + u64 + u64 * u64) as -> by (unfold gam; fold u64; cbn; ring).
    eapply Rle_trans; [apply Rabs_triang|]. apply Rplus_le_compat; [eapply Rle_trans; [apply Rabs_triang|]; lra|].
    rewrite Rabs_mult. apply Rmult_le_compat; auto; apply Rabs_pos.
  - eapply Rle_trans; [apply Rabs_triang|].
    assert (Rabs (e1 * INR k * (1 + d2)) <= eta64 * INR k * 2).
    { rewrite !Rabs_mult, (Rabs_pos_eq (INR k)) by lra. apply Rmult_le_compat; [apply Rmult_le_pos; [apply Rabs_pos|lra]|apply Rabs_pos| |].
      - apply Rmult_le_compat_r; lra.
      - eapply Rle_trans; [apply Rabs_triang|]. rewrite Rabs_R1. rewrite UV in Hd2. lra. }
    nra.
Qed.

Lemma cleanMat_V m n (A : nat -> nat -> spec_float) k l : (k < m)%nat -> (l < n)%nat ->
  cleanMat m n A k l = if nleb (nabs (A k l)) (thr (maxAbs2 m n A) (Nat.max m n)) then nzero else A k l.
Proof. intros Hk Hl. now rewrite cleanMat_pointwise by assumption. Qed.

Lemma maxAbs2_pos m n (A : nat -> nat -> R) : (0 < m)%nat -> (0 < n)%nat -> 0 <= maxAbs2 m n A.
Proof. intros Hm Hn. destruct (maxAbs2_spec m n A Hm Hn) as [_ (i & j & _ & _ & <-)]. apply Rabs_pos. Qed.

(** the test on entry (k, l), in real numbers *)
Lemma clean_dec m n (A : nat -> nat -> spec_float) k l : (k < m)%nat -> (l < n)%nat -> (Z.of_nat (Nat.max m n) <= 2 ^ 49)%Z ->
  (forall i j, (i < m)%nat -> (j < n)%nat -> isfin (A i j)) ->
  (Rabs (V (A k l)) <= V (thr (maxAbs2 m n A) (Nat.max m n)) -> cleanMat m n A k l = nzero) /\
  (V (thr (maxAbs2 m n A) (Nat.max m n)) < Rabs (V (A k l)) -> cleanMat m n A k l = A k l).
Proof.
  intros Hk Hl Hs F. destruct (maxAbs2_V m n A ltac:(lia) ltac:(lia) F) as [Fm Em].
  destruct (thr_ok (maxAbs2 m n A) (Nat.max m n)) as [Ft _]; [exact Fm|rewrite Em; apply maxAbs2_pos; lia|lia|exact Hs|].
  rewrite cleanMat_V by assumption. rewrite fleb by (try apply fin_abs'; auto). rewrite V_abs by auto. unfold rleb.
  destruct (Rle_dec _ _); split; intros; auto; lra.
Qed.
