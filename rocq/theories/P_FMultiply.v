(** Property theorems C106: multiplyMatrixVectorWithoutResidualRoundOffError in double precision. *)
From Coq Require Import Reals ZArith List Bool Lia Lra Permutation.
From Coq Require Import Floats.SpecFloat.
From Flocq Require Import Core.
From Flocq Require BinarySingleNaN.
From Verif Require Import Num MatUtil_model MatUtil_proofs Round_spec Float_proofs Round_proofs FSum_model FSum_spec FSum_proofs FResidual_model FResidual_spec FResidual_proofs FMultiply_model P_FResidual.
Import ListNotations.
Local Open Scope R_scope.

(** ** The error.  Whatever the order of the additions, fused or not, a returned entry differs from
    that of the exact product by no more than n + 3 roundings of |A| |x|, of which three are the
    entries set to zero. *)
Theorem C106_error : forall n a x ref r,
  (forall j, (j < n)%nat -> isfin (a j)) -> (forall j, (j < n)%nat -> isfin (x j)) ->
  computed_product n a x ref r -> isfin ref -> isfin r ->
  Rabs (V r - sumn n (fun j => V (a j) * V (x j))) <=
    gam (n + 3) * sumn n (fun j => Rabs (V (a j)) * Rabs (V (x j))) + tiny (n + 3).
Proof.
  intros n a x ref r Fa Fx (t & Et & Er & ->) Fr Fc.
  set (ls := seq 0 n) in *. set (L := map (fun j => V (a j) * V (x j)) ls).
  assert (LL : length L = n) by (unfold L, ls; now rewrite map_length, seq_length).
  assert (Et' : evalsum (map XF L) t).
  { replace (map XF L) with (map (fun j => prod (a j) (x j)) ls); [exact Et|]. unfold L. rewrite map_map.
    apply map_ext_in. intros l Hl. apply in_seq in Hl. apply prod_fin; [apply Fa|apply Fx]; lia. }
  assert (Er' : evalsum (map XF (map Rabs L)) ref).
  { replace (map XF (map Rabs L)) with (map (fun j => prod (nabs (a j)) (nabs (x j))) ls); [exact Er|]. unfold L. rewrite !map_map.
    apply map_ext_in. intros l Hl. apply in_seq in Hl. rewrite Rabs_mult, <- !V_abs by (try apply Fa; try apply Fx; lia).
    apply prod_fin; apply fin_abs'; [apply Fa|apply Fx]; lia. }
  assert (EL : sumn n (fun j => Rabs (V (a j)) * Rabs (V (x j))) = Labs L).
  { unfold sumn. fold ls. unfold L. rewrite Labs_map. apply Ls_ext. intros j _. now rewrite Rabs_mult. }
  rewrite EL. change (sumn n (fun j => V (a j) * V (x j))) with (Lsum L).
  eapply Rle_trans.
  - apply (clean_err n (Lsum L) (Labs L) t ref); auto.
    + apply (evalsum_valid _ _ Et).
    + intros Ft. destruct (approx_eval _ _ Et' Ft) as (Q & _). now rewrite LL in Q.
    + destruct (approx_eval _ _ Er' Fr) as (Q & _). rewrite map_length, LL in Q.
      fold (Labs L) in Q. replace (Labs (map Rabs L)) with (Labs L) in Q; [exact Q|]. unfold Labs. rewrite map_map. f_equal. apply map_ext.
      intros z. now rewrite Rabs_Rabsolu.
    + apply Labs_pos.
  - rewrite tiny_eq, plus_INR. pose proof (gam_pos (n + 3)). pose proof eta64_pos.
    assert (0 <= eta64 * (1 + gam (n + 3))) by nra. cbn [INR]. nra.
Qed.
Print Assumptions C106_error.

(** The evaluation from left to right is one of those. *)
Theorem C106_left_to_right : forall m n (A : nat -> nat -> spec_float) x i, (i < m)%nat ->
  (forall j, (j < n)%nat -> isfin (A i j)) -> (forall j, (j < n)%nat -> isfin (x j)) ->
  exists ref, computed_product n (A i) x ref (multiplyClean m n A x i).
Proof.
  assert (G : forall n (a x : nat -> spec_float), (forall j, (j < n)%nat -> isfin (a j)) -> (forall j, (j < n)%nat -> isfin (x j)) ->
    evalsum (map (fun j => prod (a j) (x j)) (seq 0 n)) (dot n a x)).
  { intros n a x Fa Fx. unfold dot.
    assert (E : forall l s0, fold_left (fun s j => nadd s (nmul (a j) (x j))) l s0 = fold_left nadd (map (fun j => nmul (a j) (x j)) l) s0).
    { induction l as [|j l IH]; intros s0; [reflexivity|]. cbn [fold_left map]. apply IH. }
    rewrite E. apply lsum_eval, F2_map. intros j Hj. apply in_seq in Hj. apply ev_mul; [apply Fa|apply Fx]; lia. }
  intros m n A x i Hi Fa Fx. exists (dot n (fun j => nabs (A i j)) (fun j => nabs (x j))). exists (dot n (A i) x).
  split; [now apply G|]. split.
  - apply (G n (fun j => nabs (A i j)) (fun j => nabs (x j))); intros j Hj; apply fin_abs'; auto.
  - rewrite multiplyClean_pointwise by exact Hi. reflexivity.
Qed.
Print Assumptions C106_left_to_right.

(** ** Two products that cancel exactly give zero ... *)
Theorem C106_pair : forall m (A : nat -> nat -> spec_float) x i, (i < m)%nat ->
  (forall j, (j < 2)%nat -> isfin (A i j)) -> (forall j, (j < 2)%nat -> isfin (x j)) ->
  (forall j, (j < 2)%nat -> Rabs (V (A i j) * V (x j)) <= bpow radix2 1023) ->
  sumn 2 (fun j => V (A i j) * V (x j)) = 0 ->
  isfin (multiplyClean m 2 A x i) /\ V (multiplyClean m 2 A x i) = 0.
Proof.
  intros m A x i Hi Fa Fx Hb S. rewrite multiplyClean_pointwise by exact Hi.
  unfold dot. cbn [seq fold_left].
  unfold sumn in S. cbn [seq map Lsum fold_right] in S.
  destruct (fmul _ _ (Fa 0%nat ltac:(lia)) (Fx 0%nat ltac:(lia)) (Hb 0%nat ltac:(lia))) as [F0 E0].
  destruct (fmul _ _ (Fa 1%nat ltac:(lia)) (Fx 1%nat ltac:(lia)) (Hb 1%nat ltac:(lia))) as [F1 E1].
  set (p0 := nmul (A i 0%nat) (x 0%nat)) in *. set (p1 := nmul (A i 1%nat) (x 1%nat)) in *.
  assert (Z0 : isfin (nzero : spec_float)) by (split; reflexivity).
  assert (B0 : Rabs (V p0) <= bpow radix2 1023) by (rewrite E0; apply rnd_bpow; [lia|apply Hb; lia]).
  destruct (fadd nzero p0 Z0 F0) as [Fs Es].
  { change (V nzero) with 0. now rewrite Rplus_0_l. }
  change (V nzero) with 0 in Es. rewrite Rplus_0_l, (rnd_V _ F0) in Es.
  assert (E : V p1 = - V p0).
  { rewrite E0, E1, <- rnd_opp. f_equal. lra. }
  destruct (fadd (nadd nzero p0) p1 Fs F1) as [Ft Et].
  { rewrite Es, E. replace (V p0 + - V p0) with 0 by ring. rewrite Rabs_R0. apply bpow_ge_0. }
  rewrite Es, E in Et. replace (V p0 + - V p0) with 0 in Et by ring. rewrite rnd_0 in Et.
  match goal with |- context [if ?c then _ else _] => destruct c end; [split; [exact Z0|reflexivity]|]. split; [exact Ft|exact Et].
Qed.
Print Assumptions C106_pair.
(** 0.1 and -0.1 times 0.3: neither product is exact. *)
Example C106_pair_case : let c := ndiv (D 1 0) (D 10 0) in let z := ndiv (D 3 0) (D 10 0) in
  let A := fun _ => dvec [c; nopp c] in let x := dvec [z; z] in
  (forall j, isfin (A 0%nat j)) /\ (forall j, isfin (x j)) /\ sumn 2 (fun j => V (A 0%nat j) * V (x j)) = 0 /\ nltb nzero (nmul c z) = true.
Proof.
  cbv zeta. split; [apply dvec_fin; vm_compute; reflexivity|]. split; [apply dvec_fin; vm_compute; reflexivity|]. split.
  - unfold sumn. cbn [seq map Lsum fold_right]. unfold dvec. cbn [nth]. rewrite V_opp. ring.
  - vm_compute. reflexivity.
Qed.

(** ... but eight do not: 1, six times 2^-53 and -(1 + 6*2^-53) sum to zero, and the round-off error
    that is left, -6*2^-53, is not removed. *)
Definition a106 : nat -> nat -> spec_float := fun _ => dvec [D 1 0; D 1 (-53); D 1 (-53); D 1 (-53); D 1 (-53); D 1 (-53); D 1 (-53); D (- (2 ^ 52 + 3)) (-52)].
Definition x106 : nat -> spec_float := dvec (repeat (D 1 0) 8).
Theorem C106_roundoff_refuted : exists m n A x i, (i < m)%nat /\ (forall j, isfin (A i j)) /\ (forall j, isfin (x j)) /\
  sumn n (fun j => V (A i j) * V (x j)) = 0 /\ isfin (multiplyClean m n A x i) /\ V (multiplyClean m n A x i) <> 0.
Proof.
  exists 1%nat, 8%nat, a106, x106, 0%nat. split; [lia|].
  split; [apply dvec_fin; vm_compute; reflexivity|]. split; [apply dvec_fin; vm_compute; reflexivity|].
  assert (E : multiplyClean 1 8 a106 x106 0%nat = S754_finite true 6755399441055744 (-103)) by (vm_compute; reflexivity).
  rewrite E. split; [|split; [apply finb_ok; vm_compute; reflexivity|]].
  - assert (E0 : D 1 0 = S754_finite false 4503599627370496 (-52)) by (vm_compute; reflexivity).
    assert (E1 : D 1 (-53) = S754_finite false 4503599627370496 (-105)) by (vm_compute; reflexivity).
    assert (E2 : D (- (2 ^ 52 + 3)) (-52) = S754_finite true 4503599627370499 (-52)) by (vm_compute; reflexivity).
    unfold sumn, a106, x106. cbn [seq map Lsum fold_right repeat]. unfold dvec. cbn [nth]. rewrite E0, E1, E2.
    unfold V, BinarySingleNaN.SF2R, F2R. cbn [Fnum Fexp cond_Zopp Z.opp].
    replace (bpow radix2 (-105)) with (bpow radix2 (-52) * / 9007199254740992) by (change (/ 9007199254740992) with (bpow radix2 (-53)); rewrite <- bpow_plus; reflexivity).
    change (bpow radix2 (-52)) with (/ 4503599627370496). field.
  - unfold V, BinarySingleNaN.SF2R, F2R. cbn [Fnum Fexp cond_Zopp Z.opp]. pose proof (bpow_gt_0 radix2 (-103)). lra.
Qed.
Print Assumptions C106_roundoff_refuted.

(** ** A product without any round-off error can be lost: 1 - (1 - 2^-53) = 2^-53 is returned as zero
    although every operation is exact. *)
Definition b106 : nat -> nat -> spec_float := fun _ => dvec [D 1 0; D (- (2 ^ 53 - 1)) (-53)].
Theorem C106_exact_refuted : exists m n A x i, (i < m)%nat /\ (forall j, isfin (A i j)) /\ (forall j, isfin (x j)) /\
  V (dot n (A i) x) = sumn n (fun j => V (A i j) * V (x j)) /\ V (dot n (A i) x) <> 0 /\ multiplyClean m n A x i = nzero.
Proof.
  exists 1%nat, 2%nat, b106, x106, 0%nat. split; [lia|].
  split; [apply dvec_fin; vm_compute; reflexivity|]. split; [apply dvec_fin; vm_compute; reflexivity|].
  assert (E : dot 2 (b106 0%nat) x106 = S754_finite false 4503599627370496 (-105)) by (vm_compute; reflexivity).
  assert (E0 : D 1 0 = S754_finite false 4503599627370496 (-52)) by (vm_compute; reflexivity).
  assert (E2 : D (- (2 ^ 53 - 1)) (-53) = S754_finite true 9007199254740991 (-53)) by (vm_compute; reflexivity).
  rewrite E. split; [|split; [|vm_compute; reflexivity]].
  - unfold sumn, b106, x106. cbn [seq map Lsum fold_right repeat]. unfold dvec. cbn [nth]. rewrite E0, E2.
    unfold V, BinarySingleNaN.SF2R, F2R. cbn [Fnum Fexp cond_Zopp Z.opp].
    replace (bpow radix2 (-105)) with (bpow radix2 (-52) * / 9007199254740992) by (change (/ 9007199254740992) with (bpow radix2 (-53)); rewrite <- bpow_plus; reflexivity).
    change (bpow radix2 (-52)) with (/ 4503599627370496). change (bpow radix2 (-53)) with (/ 9007199254740992). field.
  - unfold V, BinarySingleNaN.SF2R, F2R. cbn [Fnum Fexp cond_Zopp Z.opp]. pose proof (bpow_gt_0 radix2 (-105)). lra.
Qed.
Print Assumptions C106_exact_refuted.

(** ** An overflow of the reference value |A| |x| loses the product, however large: the hypothesis of
    C106_error that it is a number is needed.  1.5*2^1023 - 0.75*2^1023 is returned as zero. *)
Definition c106 : nat -> nat -> spec_float := fun _ => dvec [D 3 1022; D (-3) 1021].
Theorem C106_overflow_refuted : exists m n A x i, (i < m)%nat /\ (forall j, isfin (A i j)) /\ (forall j, isfin (x j)) /\
  sumn n (fun j => V (A i j) * V (x j)) = 3 * bpow radix2 1021 /\ V (dot n (A i) x) = 3 * bpow radix2 1021 /\ multiplyClean m n A x i = nzero.
Proof.
  exists 1%nat, 2%nat, c106, x106, 0%nat. split; [lia|].
  split; [apply dvec_fin; vm_compute; reflexivity|]. split; [apply dvec_fin; vm_compute; reflexivity|].
  assert (E : dot 2 (c106 0%nat) x106 = S754_finite false 6755399441055744 970) by (vm_compute; reflexivity).
  assert (E0 : D 1 0 = S754_finite false 4503599627370496 (-52)) by (vm_compute; reflexivity).
  assert (E1 : D 3 1022 = S754_finite false 6755399441055744 971) by (vm_compute; reflexivity).
  assert (E2 : D (-3) 1021 = S754_finite true 6755399441055744 970) by (vm_compute; reflexivity).
  assert (P1 : bpow radix2 971 = bpow radix2 970 * 2) by (change 2 with (bpow radix2 1); rewrite <- bpow_plus; reflexivity).
  assert (P2 : bpow radix2 1021 = bpow radix2 970 * 2251799813685248) by (change 2251799813685248 with (bpow radix2 51); rewrite <- bpow_plus; reflexivity).
  rewrite E, P2. split; [|split; [|vm_compute; reflexivity]].
  - unfold sumn, c106, x106. cbn [seq map Lsum fold_right repeat]. unfold dvec. cbn [nth]. rewrite E0, E1, E2.
    unfold V, BinarySingleNaN.SF2R, F2R. cbn [Fnum Fexp cond_Zopp Z.opp]. rewrite P1. change (bpow radix2 (-52)) with (/ 4503599627370496). field.
  - unfold V, BinarySingleNaN.SF2R, F2R. cbn [Fnum Fexp cond_Zopp Z.opp]. lra.
Qed.
Print Assumptions C106_overflow_refuted.

(** The hypotheses of C106_error are met by that of C106_roundoff_refuted: its error 6*2^-53 is
    within the bound, 11 roundings of a reference value of about 2. *)
Example C106_case : (forall j, isfin (a106 0%nat j)) /\ (forall j, isfin (x106 j)) /\
  isfin (dot 8 (fun j => nabs (a106 0%nat j)) (fun j => nabs (x106 j))) /\ isfin (multiplyClean 1 8 a106 x106 0%nat).
Proof.
  split; [apply dvec_fin; vm_compute; reflexivity|]. split; [apply dvec_fin; vm_compute; reflexivity|].
  split; apply finb_ok; vm_compute; reflexivity.
Qed.
