(** Property theorems C107: cleanResidualRoundoffErrors in double precision. *)
From Coq Require Import Reals ZArith List Arith Bool Lia Lra.
From Coq Require Import Floats.SpecFloat.
From Flocq Require Import Core.
From Verif Require Import Num Index_proofs Step_proofs MatUtil_model MatUtil_spec MatUtil_proofs Round_spec Float_proofs Round_proofs FSum_spec FSum_proofs FResidual_proofs FClean_proofs P_FResidual.
Import ListNotations.
Local Open Scope R_scope.

(** the entries of an m by n matrix are numbers; its values *)
Definition finite_matrix (m n : nat) (A : nat -> nat -> spec_float) : Prop :=
  forall i j, (i < m)%nat -> (j < n)%nat -> isfin (A i j).
Definition values (A : nat -> nat -> spec_float) (i j : nat) : R := V (A i j).
(** no dimension exceeds 2^49 *)
Definition machine_size (m n : nat) : Prop := (Z.of_nat (Nat.max m n) <= 2 ^ 49)%Z.

Lemma largest_V m n A mx : (0 < m)%nat -> (0 < n)%nat -> finite_matrix m n A -> largest m n (values A) mx ->
  isfin (maxAbs2 m n A) /\ V (maxAbs2 m n A) = mx.
Proof.
  intros Hm Hn F L. destruct (maxAbs2_V m n A Hm Hn F) as [Fm Em]. split; [exact Fm|]. rewrite Em.
  apply (largest_unique m n (values A)); [|exact L]. exact (maxAbs2_spec m n (values A) Hm Hn).
Qed.

(** ** An entry is set to zero when it is not above eps * max |A_ij| * max(m, n) and kept when it is
    above, up to the rounding of this threshold. *)
Theorem C107_threshold : forall m n A mx k l, (k < m)%nat -> (l < n)%nat -> machine_size m n ->
  finite_matrix m n A -> largest m n (values A) mx ->
  let t := / 2 ^ 52 * mx * INR (Nat.max m n) in
  let e := gam 2 * t + 3 * INR (Nat.max m n) * bpow radix2 (-1075) in
  (Rabs (values A k l) <= t - e -> cleanMat m n A k l = nzero) /\
  (t + e < Rabs (values A k l) -> cleanMat m n A k l = A k l).
Proof.
  intros m n A mx k l Hk Hl Hs F L t e. destruct (largest_V m n A mx ltac:(lia) ltac:(lia) F L) as [Fm Em].
  destruct (clean_dec m n A k l Hk Hl Hs F) as [D1 D2].
  pose proof (thr_err (maxAbs2 m n A) (Nat.max m n) Fm) as Q. cbv zeta in Q. rewrite Em in Q. fold t in Q.
  change (3 * INR (Nat.max m n) * eta64) with (3 * INR (Nat.max m n) * bpow radix2 (-1075)) in Q. fold e in Q.
  specialize (Q (largest_nonneg _ _ _ _ L) ltac:(lia) Hs). apply Rabs_le_inv in Q. unfold values in *.
  split; intros H; [apply D1|apply D2]; lra.
Qed.
Print Assumptions C107_threshold.

(** ** The largest entry is kept ... *)
Theorem C107_largest : forall m n A mx k l, (k < m)%nat -> (l < n)%nat -> machine_size m n ->
  finite_matrix m n A -> largest m n (values A) mx -> Rabs (values A k l) = mx ->
  values (cleanMat m n A) k l = values A k l.
Proof.
  intros m n A mx k l Hk Hl Hs F L E. destruct (largest_V m n A mx ltac:(lia) ltac:(lia) F L) as [Fm Em].
  destruct (clean_dec m n A k l Hk Hl Hs F) as [D1 D2]. pose proof (largest_nonneg _ _ _ _ L) as H0.
  pose proof (thr_pos (maxAbs2 m n A) (Nat.max m n) Fm ltac:(lra) ltac:(lia) Hs) as P. rewrite Em in P. unfold values in *.
  destruct (Req_dec mx 0) as [->|N]; [|rewrite D2; [reflexivity|lra]].
  rewrite D1 by (rewrite E; lra). assert (V (A k l) = 0) as -> by (destruct (Req_dec (V (A k l)) 0) as [|NE]; [assumption|apply Rabs_no_R0 in NE; lra]). reflexivity.
Qed.
Print Assumptions C107_largest.

(** ... and a second call changes nothing. *)
Theorem C107_idempotent : forall m n A k l, (k < m)%nat -> (l < n)%nat -> machine_size m n -> finite_matrix m n A ->
  cleanMat m n (cleanMat m n A) k l = cleanMat m n A k l.
Proof.
  intros m n A k l Hk Hl Hs F. set (B := cleanMat m n A).
  assert (Z0 : isfin (nzero : spec_float)) by (split; reflexivity).
  assert (C : forall i j, (i < m)%nat -> (j < n)%nat -> B i j = nzero \/ (B i j = A i j /\ V (thr (maxAbs2 m n A) (Nat.max m n)) < Rabs (V (A i j)))).
  { intros i j Hi Hj. unfold B. destruct (clean_dec m n A i j Hi Hj Hs F) as [D1 D2].
    destruct (Rle_lt_dec (Rabs (V (A i j))) (V (thr (maxAbs2 m n A) (Nat.max m n)))); [left|right]; auto. }
  assert (FB : finite_matrix m n B).
  { intros i j Hi Hj. destruct (C i j Hi Hj) as [->|[-> _]]; auto. }
  destruct (maxAbs2_V m n A ltac:(lia) ltac:(lia) F) as [FA EA]. destruct (maxAbs2_V m n B ltac:(lia) ltac:(lia) FB) as [FBm EB].
  destruct (maxAbs2_spec m n (values A) ltac:(lia) ltac:(lia)) as [MA _].
  destruct (maxAbs2_spec m n (values B) ltac:(lia) ltac:(lia)) as [_ (i & j & Hi & Hj & MB)].
  change (fun i j => V (A i j)) with (values A) in EA. change (fun i j => V (B i j)) with (values B) in EB.
  assert (LE : 0 <= V (maxAbs2 m n B) <= V (maxAbs2 m n A)).
  { rewrite EA, EB. split; [apply maxAbs2_pos; lia|]. rewrite <- MB. unfold values at 1. destruct (C i j Hi Hj) as [->|[-> _]].
    - change (V nzero) with 0. rewrite Rabs_R0. apply maxAbs2_pos; lia.
    - now apply MA. }
  pose proof (thr_mono _ _ (Nat.max m n) FBm FA LE ltac:(lia) Hs) as T.
  destruct (clean_dec m n B k l Hk Hl Hs FB) as [D1 D2].
  destruct (C k l Hk Hl) as [E|[E G]].
  - rewrite E. apply D1. rewrite E. change (V nzero) with 0. rewrite Rabs_R0.
    apply (thr_pos (maxAbs2 m n B) (Nat.max m n) FBm ltac:(lra) ltac:(lia) Hs).
  - apply D2. rewrite E. lra.
Qed.
Print Assumptions C107_idempotent.

(** ** The vectors are the matrices with one column. *)
Theorem C107_vector : forall T (N : Num T) n (v : nat -> T) k, (k < n)%nat ->
  cleanVec n v k = cleanMat n 1 (fun i _ => v i) k 0%nat.
Proof.
  intros T N n v k Hk. rewrite cleanVec_pointwise, cleanMat_pointwise by lia.
  replace (Nat.max n 1) with n by lia. reflexivity.
Qed.
Print Assumptions C107_vector.

(** ** One infinite entry erases the matrix: the threshold is infinite, and every entry, the infinite
    one included, is set to zero. *)
Definition infinite_entry (a : spec_float) : Prop := exists s, a = S754_infinity s.
Theorem C107_infinite_refuted : forall m n A k l, (k < m)%nat -> (l < n)%nat -> machine_size m n ->
  (forall i j, (i < m)%nat -> (j < n)%nat -> isfin (A i j) \/ infinite_entry (A i j)) ->
  (exists i j, (i < m)%nat /\ (j < n)%nat /\ infinite_entry (A i j)) ->
  cleanMat m n A k l = nzero.
Proof.
  intros m n A k l Hk Hl Hs F (i0 & j0 & Hi0 & Hj0 & [s0 I0]).
  set (inf := S754_infinity false) in *.
  assert (N1 : forall a, isfin a -> nltb inf (nabs a) = false /\ nltb (nabs a) inf = true).
  { intros a [_ Fa]. destruct a; try discriminate; split; reflexivity. }
  assert (MX : maxAbs2 m n A = inf).
  { assert (K : forall i j x, (i < m)%nat -> (j < n)%nat -> x = inf -> nmax x (nabs (A i j)) = inf).
    { intros i j x Hi Hj ->. unfold nmax. destruct (F i j Hi Hj) as [Fi|[s ->]]; [|reflexivity]. destruct (N1 _ Fi) as [-> _]. reflexivity. }
    assert (Q : forall i j x, (i < m)%nat -> (j < n)%nat -> (x = inf \/ isfin x /\ nabs x = x) ->
                (nmax x (nabs (A i j)) = inf \/ isfin (nmax x (nabs (A i j))) /\ nabs (nmax x (nabs (A i j))) = nmax x (nabs (A i j)))).
    { intros i j x Hi Hj [->|[Fx Ex]]; [left; now apply K|]. unfold nmax. destruct (nltb x (nabs (A i j))); [|now right].
      destruct (F i j Hi Hj) as [Fi|[s ->]]; [right; split; [now apply fin_abs'|apply abs_abs]|left; reflexivity]. }
    assert (R1 : forall i j x, (i < m)%nat -> (j < n)%nat -> infinite_entry (A i j) -> (x = inf \/ isfin x /\ nabs x = x) -> nmax x (nabs (A i j)) = inf).
    { intros i j x Hi Hj [s E] [->|[Fx Ex]]; [now apply K|]. rewrite E. unfold nmax. cbn [nabs Num_b64 SFabs]. fold inf. rewrite <- Ex. destruct (N1 _ Fx) as [_ ->]. reflexivity. }
    unfold maxAbs2.
    refine (proj2 (fold_seq_ind (fun mx j => fold_left (fun mx i => nmax mx (nabs (A i j))) (seq 0 m) mx)
      (fun c mx => (mx = inf \/ isfin mx /\ nabs mx = mx) /\ ((j0 < c)%nat -> mx = inf)) n _ _ _) Hj0).
    - split; [|lia]. destruct (F 0%nat 0%nat ltac:(lia) ltac:(lia)) as [Fi|[s ->]]; [right; split; [now apply fin_abs'|apply abs_abs]|left; reflexivity].
    - intros c mx Hc [G1 G2].
      destruct (fold_seq_ind (fun mx i => nmax mx (nabs (A i c)))
        (fun r x => (x = inf \/ isfin x /\ nabs x = x) /\ (mx = inf -> x = inf) /\ (c = j0 -> (i0 < r)%nat -> x = inf)) m mx) as (E1 & E2 & E3).
      + split; [exact G1|]. split; [auto|lia].
      + intros r x Hr (E1 & E2 & E3). split; [now apply Q|]. split; [intros E; apply K; auto|].
        intros -> Hr'. destruct (Nat.eq_dec i0 r) as [<-|NE]; [apply R1; auto; now exists s0|]. apply K; auto. apply E3; [reflexivity|lia].
      + split; [exact E1|]. intros Hj. destruct (Nat.eq_dec c j0) as [->|NE]; [apply E3; [reflexivity|exact Hi0]|]. apply E2, G2. lia. }
  rewrite cleanMat_V by assumption. rewrite MX.
  assert (T : thr inf (Nat.max m n) = inf).
  { unfold thr. assert (nmul neps inf = inf) as -> by (vm_compute; reflexivity).
    destruct (RationalF_proofs.ofZ_V (Z.of_nat (Nat.max m n))) as [Fz Vz]; [unfold machine_size in Hs; lia|].
    set (z := nofZ (Z.of_nat (Nat.max m n)) : spec_float) in *.
    assert (P : 0 < V z) by (rewrite Vz; apply (IZR_lt 0); lia).
    destruct z as [s|s| |s mm e]; cbn [nmul Num_b64] in *.
    - unfold V in P. cbn in P. lra.
    - destruct Fz; discriminate.
    - destruct Fz; discriminate.
    - destruct s; [|reflexivity]. unfold V, BinarySingleNaN.SF2R, F2R in P. cbn [Fnum Fexp cond_Zopp] in P.
      pose proof (bpow_gt_0 radix2 e). assert (IZR (Z.neg mm) < 0) by (apply (IZR_lt _ 0); lia). exfalso. revert P. apply Rle_not_lt. change (- Z.pos mm)%Z with (Z.neg mm). nra. }
  rewrite T. assert (nleb (nabs (A k l)) inf = true) as ->; [|reflexivity].
  destruct (F k l Hk Hl) as [[_ Fi]|[s ->]]; [destruct (A k l); try discriminate; reflexivity|reflexivity].
Qed.
Print Assumptions C107_infinite_refuted.

(** ** Cases: [1 2^-60; -3 2^-48] loses the entry 2^-60 and keeps 2^-48; with an infinity the hypotheses of
    the last theorem hold. *)
Definition m107 : nat -> nat -> spec_float := dmat [[D 1 0; D 1 (-60)]; [D (-3) 0; D 1 (-48)]].
Example C107_case : finite_matrix 2 2 m107 /\ machine_size 2 2 /\ cleanMat 2 2 m107 0%nat 1%nat = nzero /\ cleanMat 2 2 m107 1%nat 1%nat = D 1 (-48) /\
  cleanMat 2 2 m107 1%nat 0%nat = D (-3) 0.
Proof.
  split; [intros i j _ _; apply dmat_fin; vm_compute; reflexivity|]. split; [unfold machine_size; cbn; lia|].
  split; [|split]; vm_compute; reflexivity.
Qed.
Example C107_infinite_case : let A := fun i j => if Nat.eqb i 0 then S754_infinity true else m107 i j in
  (forall i j, (i < 2)%nat -> (j < 2)%nat -> isfin (A i j) \/ infinite_entry (A i j)) /\
  (exists i j, (i < 2)%nat /\ (j < 2)%nat /\ infinite_entry (A i j)) /\ A 1%nat 0%nat <> nzero.
Proof.
  cbv zeta. split; [|split; [exists 0%nat, 0%nat; repeat split; try lia; now exists true|vm_compute; discriminate]].
  intros i j Hi Hj. destruct (Nat.eqb i 0); [right; now exists true|left]. apply dmat_fin; vm_compute; reflexivity.
Qed.
