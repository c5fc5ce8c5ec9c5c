From Coq Require Import List Arith Bool ZArith Reals Lra Lia Psatz.
Import ListNotations.
From Verif Require Import Num Index_spec Index_proofs Num_facts Step_proofs MatUtil_model MatUtil_spec.
Local Open Scope R_scope.

(** ** Pointwise form of the loops, any numbers *)
Section Any.
Context {T : Type} {N : Num T}.

Lemma set1_loop (c : nat -> T -> bool) n (v : nat -> T) k :
  fold_left (fun v i => if c i (v i) then set1 v i nzero else v) (seq 0 n) v k =
  if Nat.ltb k n && c k (v k) then nzero else v k.
Proof.
  apply (fold_seq_ind (fun v i => if c i (v i) then set1 v i nzero else v)
    (fun m w => w k = (if Nat.ltb k m && c k (v k) then nzero else v k) /\ forall l, (m <= l)%nat -> w l = v l)).
  - split; reflexivity.
  - intros m w Hm [H1 H2]. split.
    + destruct (Nat.eq_dec k m) as [->|Hk].
      * rewrite H2 by lia. rewrite (proj2 (Nat.ltb_lt m (S m))) by lia. cbn [andb].
        destruct (c m (v m)); [unfold set1; rewrite Nat.eqb_refl; reflexivity|apply H2; lia].
      * replace ((if c m (w m) then set1 w m nzero else w) k) with (w k).
        2: { destruct (c m (w m)); [|reflexivity]. unfold set1. destruct (Nat.eqb_spec k m); [lia|reflexivity]. }
        rewrite H1. destruct (Nat.ltb_spec k m), (Nat.ltb_spec k (S m)); try lia; reflexivity.
    + intros l Hl. destruct (c m (w m)); [|apply H2; lia]. unfold set1.
      destruct (Nat.eqb_spec l m); [lia|]. apply H2. lia.
Qed.

Lemma cleanVec_pointwise n (v : nat -> T) k : (k < n)%nat ->
  cleanVec n v k =
  if nleb (nabs (v k)) (nmul (nmul neps (maxAbs1 n v)) (nofZ (Z.of_nat n))) then nzero else v k.
Proof.
  intros Hk. unfold cleanVec. destruct (Nat.eqb_spec n 0); [lia|]. unfold cleanVec_iter.
  set (thr := nmul _ _). rewrite (set1_loop (fun _ a => nleb (nabs a) thr)).
  rewrite (proj2 (Nat.ltb_lt k n)) by exact Hk. reflexivity.
Qed.

Lemma cleanMat_row thr i n (A : nat -> nat -> T) k l :
  fold_left (cleanMat_iter thr i) (seq 0 n) A k l =
  if Nat.eqb k i && Nat.ltb l n && nleb (nabs (A k l)) thr then nzero else A k l.
Proof.
  apply (fold_seq_ind (cleanMat_iter thr i) (fun m B =>
    (forall l, B k l = if Nat.eqb k i && Nat.ltb l m && nleb (nabs (A k l)) thr then nzero else A k l) /\
    (forall l, (m <= l)%nat -> B i l = A i l))).
  - split; [|reflexivity]. intros l'. rewrite andb_comm, andb_assoc. cbn. rewrite andb_false_r. reflexivity.
  - intros m B Hm [H1 H2]. unfold cleanMat_iter. split.
    + intros l'. rewrite (H2 m (le_n _)).
      destruct (Nat.eqb_spec k i) as [->|Hk]; cbn [andb].
      * destruct (Nat.eq_dec l' m) as [->|Hl].
        -- rewrite (proj2 (Nat.ltb_lt m (S m))) by lia. cbn [andb].
           destruct (nleb (nabs (A i m)) thr); [unfold set2; rewrite !Nat.eqb_refl; reflexivity|apply H2; lia].
        -- replace (Nat.ltb l' (S m)) with (Nat.ltb l' m)
             by (destruct (Nat.ltb_spec l' m), (Nat.ltb_spec l' (S m)); lia || reflexivity).
           specialize (H1 l'). cbn [andb] in H1. rewrite <- H1.
           destruct (nleb (nabs (A i m)) thr); [|reflexivity]. unfold set2.
           destruct (Nat.eqb_spec l' m); [lia|]. rewrite andb_false_r. reflexivity.
      * specialize (H1 l'). cbn [andb] in H1. rewrite <- H1.
        destruct (nleb (nabs (A i m)) thr); [|reflexivity]. unfold set2.
        destruct (Nat.eqb_spec k i); [lia|]. reflexivity.
    + intros l' Hl'. destruct (nleb (nabs (B i m)) thr); [|apply H2; lia]. unfold set2.
      destruct (Nat.eqb_spec l' m); [lia|]. rewrite andb_false_r. apply H2. lia.
Qed.

Lemma cleanMat_loop thr m n (A : nat -> nat -> T) k l :
  fold_left (fun A i => fold_left (cleanMat_iter thr i) (seq 0 n) A) (seq 0 m) A k l =
  if Nat.ltb k m && Nat.ltb l n && nleb (nabs (A k l)) thr then nzero else A k l.
Proof.
  apply (fold_seq_ind (fun A i => fold_left (cleanMat_iter thr i) (seq 0 n) A)
    (fun j B => forall l, B k l = if Nat.ltb k j && Nat.ltb l n && nleb (nabs (A k l)) thr then nzero else A k l)).
  - reflexivity.
  - intros j B Hj HB l'. rewrite cleanMat_row, HB.
    destruct (Nat.eqb_spec k j) as [->|Hk].
    + rewrite (proj2 (Nat.ltb_lt j (S j))) by lia. rewrite Nat.ltb_irrefl. reflexivity.
    + cbn [andb]. replace (Nat.ltb k (S j)) with (Nat.ltb k j)
             by (destruct (Nat.ltb_spec k j), (Nat.ltb_spec k (S j)); lia || reflexivity). reflexivity.
Qed.

Lemma cleanMat_pointwise m n (A : nat -> nat -> T) k l : (k < m)%nat -> (l < n)%nat ->
  cleanMat m n A k l =
  if nleb (nabs (A k l)) (nmul (nmul neps (maxAbs2 m n A)) (nofZ (Z.of_nat (Nat.max m n)))) then nzero else A k l.
Proof.
  intros Hk Hl. unfold cleanMat. destruct (Nat.eqb_spec (m * n) 0); [nia|]. rewrite cleanMat_loop.
  rewrite (proj2 (Nat.ltb_lt k m)), (proj2 (Nat.ltb_lt l n)) by assumption. reflexivity.
Qed.

Lemma multiplyClean_pointwise m n (A : nat -> nat -> T) x k : (k < m)%nat ->
  multiplyClean m n A x k =
  if nltb (nabs (dot n (A k) x)) (nmul (dot n (fun j => nabs (A k j)) (fun j => nabs (x j))) neps)
  then nzero else dot n (A k) x.
Proof.
  intros Hk. unfold multiplyClean, multiplyClean_iter.
  rewrite (set1_loop (fun i a => nltb (nabs a) (nmul (dot n (fun j => nabs (A i j)) (fun j => nabs (x j))) neps))).
  rewrite (proj2 (Nat.ltb_lt k m)) by exact Hk. reflexivity.
Qed.
End Any.

(** ** Exact arithmetic *)
Lemma neps_R : @neps R _ = / 2 ^ 52.
Proof. unfold neps, none1. cbn [ndiv nofZ Num_R]. rewrite (pow_IZR 2 52). unfold Rdiv. rewrite Rmult_1_l. reflexivity. Qed.
Lemma neps_pos : 0 < @neps R _.
Proof. rewrite neps_R. apply Rinv_0_lt_compat, pow_lt. lra. Qed.

Lemma nmax_R a b : @nmax R _ a b = Rmax a b.
Proof. unfold nmax. cbn [nltb Num_R]. unfold Rmax. destruct (rltb a b) eqn:E; [apply rltb_true in E|apply rltb_false in E]; destruct (Rle_dec a b); lra. Qed.

Definition is_max_of (n : nat) (f : nat -> R) (mx : R) : Prop :=
  (forall i, (i < n)%nat -> f i <= mx) /\ exists i, (i < n)%nat /\ f i = mx.

Lemma maxAbs1_spec n (v : nat -> R) : (0 < n)%nat ->
  (forall i, (i < n)%nat -> Rabs (v i) <= maxAbs1 n v) /\ (exists i, (i < n)%nat /\ Rabs (v i) = maxAbs1 n v).
Proof.
  intros Hn. unfold maxAbs1. apply (fold_seq_ind (fun m i => nmax m (nabs (v i)))
    (fun k mx => (forall i, (i < k)%nat -> Rabs (v i) <= mx) /\ exists i, (i < n)%nat /\ Rabs (v i) = mx)).
  - split; [lia|]. exists 0%nat. split; [exact Hn|reflexivity].
  - intros k mx Hk [H1 (j & Hj & H2)]. rewrite nmax_R. cbn [nabs Num_R]. split.
    + intros i Hi. destruct (Nat.eq_dec i k) as [->|]; [apply Rmax_r|].
      apply Rle_trans with mx; [apply H1; lia|apply Rmax_l].
    + unfold Rmax. destruct (Rle_dec mx (Rabs (v k))); [exists k|exists j]; split; auto; lia.
Qed.

Lemma maxAbs2_spec m n (A : nat -> nat -> R) : (0 < m)%nat -> (0 < n)%nat ->
  (forall i j, (i < m)%nat -> (j < n)%nat -> Rabs (A i j) <= maxAbs2 m n A) /\
  (exists i j, (i < m)%nat /\ (j < n)%nat /\ Rabs (A i j) = maxAbs2 m n A).
Proof.
  intros Hm Hn. unfold maxAbs2.
  apply (fold_seq_ind (fun mx j => fold_left (fun mx i => nmax mx (nabs (A i j))) (seq 0 m) mx)
    (fun k mx => (forall i j, (i < m)%nat -> (j < k)%nat -> Rabs (A i j) <= mx) /\
                 exists i j, (i < m)%nat /\ (j < n)%nat /\ Rabs (A i j) = mx)).
  - split; [lia|]. exists 0%nat, 0%nat. auto.
  - intros k mx Hk H.
    pose proof (fold_seq_ind (fun mx i => nmax mx (nabs (A i k))) (fun r mx' => mx <= mx' /\
      (forall i, (i < r)%nat -> Rabs (A i k) <= mx') /\ exists i j, (i < m)%nat /\ (j < n)%nat /\ Rabs (A i j) = mx') m mx) as F.
    destruct F as (F1 & F2 & F3).
    + split; [lra|]. split; [lia|]. apply H.
    + intros r mx' Hr (G1 & G2 & (a & b & Ga & Gb & Gab)). rewrite nmax_R. cbn [nabs Num_R].
      pose proof (Rmax_l mx' (Rabs (A r k))). pose proof (Rmax_r mx' (Rabs (A r k))). split; [lra|]. split.
      * intros i Hi. destruct (Nat.eq_dec i r) as [->|]; [assumption|].
        apply Rle_trans with mx'; [apply G2; lia|assumption].
      * unfold Rmax. destruct (Rle_dec mx' (Rabs (A r k))); [exists r, k|exists a, b]; auto.
    + split; [|exact F3]. intros i j Hi Hj. destruct (Nat.eq_dec j k) as [->|]; [apply F2; exact Hi|].
      apply Rle_trans with mx; [apply H; lia|exact F1].
Qed.

Lemma cleanMat_R m n (A : nat -> nat -> R) k l : (k < m)%nat -> (l < n)%nat ->
  cleanMat m n A k l = if Rle_dec (Rabs (A k l)) (/ 2 ^ 52 * maxAbs2 m n A * INR (Nat.max m n)) then 0 else A k l.
Proof.
  intros Hk Hl. rewrite cleanMat_pointwise by assumption. rewrite neps_R. cbn [nleb nabs nmul nofZ nzero Num_R].
  rewrite <- INR_IZR_INZ. unfold rleb. destruct (Rle_dec _ _); reflexivity.
Qed.

Lemma largest_unique m n A a b : largest m n A a -> largest m n A b -> a = b.
Proof. intros [H1 (i & j & Hi & Hj & <-)] [H2 (k & l & Hk & Hl & <-)]. apply Rle_antisym; [apply H2|apply H1]; assumption. Qed.

Lemma cleanMat_exact m n (A : nat -> nat -> R) mx k l : (k < m)%nat -> (l < n)%nat -> largest m n A mx ->
  (Rabs (A k l) <= / 2 ^ 52 * mx * INR (Nat.max m n) -> cleanMat m n A k l = 0) /\
  (/ 2 ^ 52 * mx * INR (Nat.max m n) < Rabs (A k l) -> cleanMat m n A k l = A k l).
Proof.
  intros Hk Hl HL. rewrite cleanMat_R by assumption.
  rewrite (largest_unique _ _ _ _ _ (maxAbs2_spec m n A ltac:(lia) ltac:(lia)) HL).
  split; intros H; destruct (Rle_dec _ _); lra.
Qed.

Lemma largest_nonneg m n A mx : largest m n A mx -> 0 <= mx.
Proof. intros [_ (i & j & _ & _ & <-)]. apply Rabs_pos. Qed.

Lemma cleanMat_keeps_largest m n (A : nat -> nat -> R) mx k l : (k < m)%nat -> (l < n)%nat -> largest m n A mx ->
  INR (Nat.max m n) < 2 ^ 52 -> Rabs (A k l) = mx -> cleanMat m n A k l = A k l.
Proof.
  intros Hk Hl HL Hs Hmx. pose proof (largest_nonneg _ _ _ _ HL) as H0.
  assert (0 < / 2 ^ 52) by (apply Rinv_0_lt_compat, pow_lt; lra).
  assert (H1 : / 2 ^ 52 * INR (Nat.max m n) < 1).
  { rewrite <- (Rinv_l (2 ^ 52)) by (apply pow_nonzero; lra). apply Rmult_lt_compat_l; assumption. }
  destruct (Req_dec mx 0) as [->|Hne].
  - assert (A k l = 0) as E.
    { destruct (Req_dec (A k l) 0) as [|F]; [assumption|]. apply Rabs_no_R0 in F. contradiction. }
    rewrite cleanMat_R by assumption. rewrite E. destruct (Rle_dec _ _); reflexivity.
  - apply (cleanMat_exact m n A mx k l Hk Hl HL). rewrite Hmx. rewrite Rmult_assoc, (Rmult_comm mx), <- Rmult_assoc. nra.
Qed.

Lemma cleanMat_idempotent m n (A : nat -> nat -> R) k l : (k < m)%nat -> (l < n)%nat ->
  cleanMat m n (cleanMat m n A) k l = cleanMat m n A k l.
Proof.
  intros Hk Hl. set (B := cleanMat m n A).
  pose proof (maxAbs2_spec m n A ltac:(lia) ltac:(lia)) as HA. set (mx := maxAbs2 m n A) in *. fold (largest m n A mx) in HA.
  pose proof (maxAbs2_spec m n B ltac:(lia) ltac:(lia)) as HB. set (mb := maxAbs2 m n B) in *. fold (largest m n B mb) in HB.
  assert (P : 0 < / 2 ^ 52) by (apply Rinv_0_lt_compat, pow_lt; lra).
  assert (Hmx : 0 <= mx) by (apply (largest_nonneg _ _ _ _ HA)).
  assert (Hmb : 0 <= mb) by (apply (largest_nonneg _ _ _ _ HB)).
  assert (HI : 0 <= INR (Nat.max m n)) by apply pos_INR.
  assert (Hle : mb <= mx).
  { destruct HB as [_ (i & j & Hi & Hj & <-)]. unfold B. rewrite cleanMat_R by assumption.
    destruct (Rle_dec _ _); [rewrite Rabs_R0; exact Hmx|]. apply HA; assumption. }
  assert (Hthr : / 2 ^ 52 * mb * INR (Nat.max m n) <= / 2 ^ 52 * mx * INR (Nat.max m n)).
  { apply Rmult_le_compat_r; [exact HI|]. apply Rmult_le_compat_l; lra. }
  rewrite (cleanMat_R m n B) by assumption. fold mb.
  destruct (Rle_dec _ _) as [H|H]; [|reflexivity].
  unfold B in *. rewrite cleanMat_R in H |- * by assumption. fold mx in H |- *.
  destruct (Rle_dec (Rabs (A k l)) _) as [H'|H']; [reflexivity|]. lra.
Qed.

Lemma cleanVec_R n (v : nat -> R) k : (k < n)%nat ->
  cleanVec n v k = if Rle_dec (Rabs (v k)) (/ 2 ^ 52 * maxAbs1 n v * INR n) then 0 else v k.
Proof.
  intros Hk. rewrite cleanVec_pointwise by assumption. rewrite neps_R. cbn [nleb nabs nmul nofZ nzero Num_R].
  rewrite <- INR_IZR_INZ. unfold rleb. destruct (Rle_dec _ _); reflexivity.
Qed.

(** a vector is cleaned as a matrix with one column *)
Lemma cleanVec_cleanMat n (v : nat -> R) k : (k < n)%nat -> cleanVec n v k = cleanMat n 1 (fun i _ => v i) k 0.
Proof.
  intros Hk. rewrite cleanVec_R, cleanMat_R by lia. rewrite Nat.max_l by lia.
  replace (maxAbs2 n 1 (fun i _ => v i)) with (maxAbs1 n v); [reflexivity|].
  apply (largest_unique n 1 (fun i _ => v i)); [|apply maxAbs2_spec; lia].
  destruct (maxAbs1_spec n v ltac:(lia)) as [H1 (i & Hi & H2)]. split; [intros; apply H1; assumption|].
  exists i, 0%nat. repeat split; auto.
Qed.

(** ** Product *)
Lemma dot_R n (a b : nat -> R) : dot n a b = Rsum n (fun j => a j * b j).
Proof.
  unfold dot. apply (fold_seq_ind (fun s j => nadd s (nmul (a j) (b j)))
    (fun k s => s = Rsum k (fun j => a j * b j))); [reflexivity|]. intros k s Hk ->. reflexivity.
Qed.

Lemma multiplyClean_exact m n (A : nat -> nat -> R) x k : (k < m)%nat ->
  let b := Rsum n (fun j => A k j * x j) in
  let ref := Rsum n (fun j => Rabs (A k j) * Rabs (x j)) in
  let r := multiplyClean m n A x k in
  (Rabs b < ref * / 2 ^ 52 -> r = 0) /\ (ref * / 2 ^ 52 <= Rabs b -> r = b) /\ Rabs (r - b) <= / 2 ^ 52 * ref.
Proof.
  intros Hk b ref r. assert (E : r = if Rlt_dec (Rabs b) (ref * / 2 ^ 52) then 0 else b).
  { unfold r. rewrite multiplyClean_pointwise by exact Hk. rewrite !dot_R, neps_R. fold b. fold ref.
    cbn [nltb nabs nmul nzero nofZ Num_R]. unfold rltb. destruct (Rlt_dec _ _); reflexivity. }
  assert (0 <= ref).
  { unfold ref. clear. induction n; cbn [Rsum]; [lra|]. pose proof (Rabs_pos (A k n)). pose proof (Rabs_pos (x n)). nra. }
  assert (0 < / 2 ^ 52) by (apply Rinv_0_lt_compat, pow_lt; lra).
  rewrite E. destruct (Rlt_dec (Rabs b) (ref * / 2 ^ 52)) as [H'|H'].
  - split; [reflexivity|]. split; [lra|]. replace (0 - b) with (- b) by lra. rewrite Rabs_Ropp. lra.
  - split; [intros; lra|]. split; [reflexivity|]. rewrite Rminus_diag_eq, Rabs_R0 by reflexivity. nra.
Qed.

(** ** Structured and fixed-size assignment *)
Lemma structured_assign_dense {T} {N : Num T} (A B : matrix T) :
  (0 < rows B)%nat -> rows B = cols B -> rows A = rows B -> cols A = cols B ->
  exists A', structured_assign A B = Some A' /\ rows A' = rows A /\ cols A' = cols A /\ entry A' = entry B.
Proof.
  intros H1 H2 H3 H4. unfold structured_assign, matrixStructure, isDenseMatrix, msize.
  rewrite <- H2. rewrite Nat.eqb_refl, (proj2 (Nat.ltb_lt 0 (rows B * rows B))) by nia. cbn [andb].
  unfold ref_assign. rewrite H3, H4, <- H2, !Nat.eqb_refl. cbn. eexists. split; [reflexivity|]. cbn. auto.
Qed.
Lemma structured_assign_diagonal {T} {N : Num T} (A B : matrix T) :
  (1 < rows B)%nat -> cols B = 1%nat -> rows A = rows B -> cols A = rows B ->
  exists A', structured_assign A B = Some A' /\ rows A' = rows A /\ cols A' = cols A /\
    forall i j, entry A' i j = if Nat.eqb i j then entry B i 0 else nzero.
Proof.
  intros H1 H2 H3 H4. unfold structured_assign, matrixStructure, isDenseMatrix, isDiagonalMatrix, msize.
  rewrite H2. destruct (Nat.eqb_spec (rows B) 1); [lia|]. rewrite andb_false_r.
  rewrite (proj2 (Nat.ltb_lt 1 (rows B * 1))) by lia. cbn [andb Nat.eqb].
  unfold ref_assign. cbn [rows cols]. rewrite H3, H4, !Nat.eqb_refl. cbn. eexists. split; [reflexivity|]. cbn. auto.
Qed.
Lemma structured_assign_other {T} {N : Num T} (A B : matrix T) :
  (rows B = 0 \/ cols B = 0 \/ (rows B <> cols B /\ cols B <> 1))%nat -> structured_assign A B = Some A.
Proof.
  intros H. unfold structured_assign, matrixStructure, isDenseMatrix, isDiagonalMatrix, msize.
  destruct (Nat.ltb_spec 0 (rows B * cols B)), (Nat.ltb_spec 1 (rows B * cols B)), (Nat.eqb_spec (rows B) (cols B)),
    (Nat.eqb_spec (cols B) 1); cbn [andb]; try reflexivity; try nia.
Qed.

Lemma fixed_assign_spec {T} (A B : matrix T) : 
  (fixed_assign A B = Throws <-> (rows A <> rows B \/ cols A <> cols B)%nat /\ ~ (msize A = 0 /\ msize B = 0)%nat) /\
  (forall A', fixed_assign A B = Ok A' -> rows A' = rows A /\ cols A' = cols A /\
     forall i j, (i < rows A')%nat -> (j < cols A')%nat -> entry A' i j = entry B i j) /\
  assignOrError A B = fixed_assign A B.
Proof.
  unfold fixed_assign, assignOrError.
  destruct (Nat.eqb_spec (msize A) 0), (Nat.eqb_spec (msize B) 0), (Nat.eqb_spec (rows A) (rows B)), (Nat.eqb_spec (cols A) (cols B));
    cbn [negb andb orb]; (split; [split; [intros H; try discriminate; split; tauto|intros; try tauto; try (exfalso; tauto)]|split; [intros A' E; try discriminate; injection E as <-; repeat split; auto|reflexivity]]).
  all: intros i j Hi Hj; exfalso; unfold msize in *; nia.
Qed.

Lemma ensureMinimumDimension_spec {T} fresh (A : matrix T) r c :
  let B := ensureMinimumDimension fresh A r c in
  rows B = Nat.max (rows A) r /\ cols B = Nat.max (cols A) c /\ ((r <= rows A)%nat -> (c <= cols A)%nat -> B = A).
Proof.
  unfold ensureMinimumDimension.
  destruct (Nat.eqb_spec (Nat.max (rows A) r) (rows A)), (Nat.eqb_spec (Nat.max (cols A) c) (cols A)); cbn [andb rows cols];
    repeat split; auto; intros; lia.
Qed.
