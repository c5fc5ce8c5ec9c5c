(** The step-length functions in binary64. *)
From Coq Require Import Reals ZArith List Bool Lia Lra.
From Coq Require Import Floats.SpecFloat.
From Flocq Require Import Core BinarySingleNaN Relative.
From Verif Require Import Num Index_spec Num_facts Step_model Step_spec Step_proofs Round_spec Float_proofs Round_proofs RoundRun_proofs.
Import ListNotations.
Local Open Scope R_scope.

Lemma rnd_ge x y : isfin y -> V y <= x -> V y <= rnd x.
Proof. intros F H. rewrite <- (rnd_V y F). now apply rnd_le. Qed.
Lemma rnd_le_V x y : isfin y -> x <= V y -> rnd x <= V y.
Proof. intros F H. rewrite <- (rnd_V y F). now apply rnd_le. Qed.

Lemma add_ok x y : moderate x -> moderate y ->
  isfin (nadd x y) /\ V (nadd x y) = rnd (V x + V y) /\
  exists d, Rabs d <= u64 /\ rnd (V x + V y) = (V x + V y) * (1 + d).
Proof.
  intros [Fx Hx] [Fy Hy].
  assert (S : Rabs (V x + V y) <= bpow radix2 1023).
  { eapply Rle_trans; [apply Rabs_triang|]. pose proof b1020. pose proof b1021_23. lra. }
  destruct (fadd x y Fx Fy S) as [F E]. split; [exact F|]. split; [exact E|].
  apply rnd_plus_err; now apply V_format.
Qed.

(** the factor that takes o to the bound h, which lies between o and o + d *)
Lemma alphai_ok h o d : moderate h -> moderate o -> moderate d ->
  (V o < V h < V o + V d \/ V o + V d < V h < V o) ->
  let q := ndiv (nsub h o) d in
  isfin q /\ 0 <= V q <= 1 /\ Rabs (V q - (V h - V o) / V d) <= 4 * u64 /\ 0 < (V h - V o) / V d < 1.
Proof.
  intros Mh Mo Md O q.
  destruct (sub_ok h o Mh Mo) as (Fa & Ea & d1 & D1 & E1).
  assert (Nd : V d <> 0) by (destruct O; lra).
  assert (R01 : 0 < (V h - V o) / V d < 1).
  { destruct O as [O|O].
    - split; [apply Rdiv_lt_0_compat; lra|]. apply Rmult_lt_reg_r with (V d); [lra|]. unfold Rdiv. rewrite Rmult_assoc, Rinv_l; lra.
    - replace ((V h - V o) / V d) with ((V o - V h) / (- V d)) by (field; lra).
      split; [apply Rdiv_lt_0_compat; lra|]. apply Rmult_lt_reg_r with (- V d); [lra|]. unfold Rdiv. rewrite Rmult_assoc, Rinv_l; lra. }
  set (r := (V h - V o) / V d) in *.
  assert (Q01 : 0 <= V (nsub h o) / V d <= 1).
  { rewrite Ea. destruct O as [O|O].
    - assert (L : rnd (V h - V o) <= V d) by (apply rnd_le_V; [apply Md|lra]).
      assert (P : 0 <= rnd (V h - V o)) by (rewrite <- rnd_0; apply rnd_le; lra).
      split; [apply Rmult_le_pos; [exact P|apply Rlt_le, Rinv_0_lt_compat; lra]|].
      apply Rmult_le_reg_r with (V d); [lra|]. unfold Rdiv. rewrite Rmult_assoc, Rinv_l; lra.
    - assert (L : V d <= rnd (V h - V o)) by (apply rnd_ge; [apply Md|lra]).
      assert (P : rnd (V h - V o) <= 0) by (rewrite <- rnd_0; apply rnd_le; lra).
      replace (rnd (V h - V o) / V d) with ((- rnd (V h - V o)) / (- V d)) by (field; lra).
      split; [apply Rmult_le_pos; [lra|apply Rlt_le, Rinv_0_lt_compat; lra]|].
      apply Rmult_le_reg_r with (- V d); [lra|]. unfold Rdiv. rewrite Rmult_assoc, Rinv_l; lra. }
  assert (S : Rabs (V (nsub h o) / V d) <= bpow radix2 1023).
  { rewrite Rabs_pos_eq by lra. apply Rle_trans with 1; [lra|]. change 1 with (bpow radix2 0). apply bpow_le. lia. }
  destruct (fdiv _ _ Fa (proj1 Md) Nd S) as [Fq Eq]. fold q in Fq, Eq.
  split; [exact Fq|]. split; [|split; [|exact R01]].
  - rewrite Eq. rewrite <- rnd_0 at 1. rewrite <- rnd_1. split; apply rnd_le; lra.
  - destruct (rnd_err (V (nsub h o) / V d)) as (d3 & e3 & D3 & E3 & X3).
    rewrite Eq, X3. set (t := V (nsub h o) / V d) in *.
    assert (T : t = r * (1 + d1)). { unfold t, r. rewrite Ea, E1. field. exact Nd. }
    rb. pose proof u64_val. pose proof eta_u.
    assert (A2 : - u64 <= r * d1 <= u64) by nra.
    assert (A4 : - u64 <= t * d3 <= u64) by nra.
    apply Rabs_le. lra.
Qed.

(** the value after a step by the factor a, before the bounds are enforced *)
Lemma move_ok a o d : isfin a -> 0 <= V a <= 1 -> moderate o -> moderate d ->
  let t := nadd o (nmul a d) in
  isfin t /\ Rabs (V t - (V o + V a * V d)) <= 3 * u64 * (Rabs (V o) + Rabs (V d)) + 2 * eta64 /\
  (V d <= 0 -> V t <= V o) /\ (0 <= V d -> V o <= V t).
Proof.
  intros Fa Ia [Fo Ho] [Fd Hd] t. unfold t.
  assert (Pad : Rabs (V a * V d) <= bpow radix2 1020).
  { rewrite Rabs_mult, (Rabs_pos_eq (V a)) by lra. pose proof (Rabs_pos (V d)). nra. }
  destruct (fmul a d Fa Fd) as [F2 E2]; [pose proof b1020_23; lra|].
  assert (M2 : moderate (nmul a d)). { split; [exact F2|]. rewrite E2. apply rnd_bpow; [lia|exact Pad]. }
  destruct (add_ok o (nmul a d) (conj Fo Ho) M2) as (F3 & E3 & d3 & D3 & X3).
  split; [exact F3|]. split; [|split].
  - rewrite E3, X3. destruct (rnd_err (V a * V d)) as (d2 & e2 & D2 & H2 & X2). rewrite E2, X2.
    set (O := V o) in *. set (W := V d) in *. set (A := V a) in *.
    pose proof u64_pos. pose proof u64_val as UV. pose proof eta64_pos. pose proof eta_1.
    pose proof (Rabs_pos O) as PO. pose proof (Rabs_pos W) as PW.
    assert (T : Rabs (A * W * (1 + d2) + e2 - A * W) <= u64 * Rabs W + eta64).
    { replace (A * W * (1 + d2) + e2 - A * W) with ((A * d2) * W + e2) by ring.
      eapply Rle_trans; [apply Rabs_triang|]. apply Rplus_le_compat; [|exact H2]. rewrite !Rabs_mult, (Rabs_pos_eq A) by lra.
      pose proof (Rabs_pos d2). apply Rmult_le_compat_r; [exact PW|]. nra. }
    set (M := A * W * (1 + d2) + e2) in *.
    assert (EM : Rabs M <= Rabs W * (1 + u64) + eta64).
    { replace M with ((M - A * W) + A * W) by ring. eapply Rle_trans; [apply Rabs_triang|].
      rewrite (Rabs_mult A), (Rabs_pos_eq A) by lra. nra. }
    replace ((O + M) * (1 + d3) - (O + A * W)) with ((M - A * W) + (O + M) * d3) by ring.
    eapply Rle_trans; [apply Rabs_triang|].
    assert (Q2 : Rabs ((O + M) * d3) <= u64 * (Rabs O + Rabs W * (1 + u64) + eta64)).
    { rewrite Rabs_mult, Rmult_comm. apply Rmult_le_compat; try apply Rabs_pos; [exact D3|].
      eapply Rle_trans; [apply Rabs_triang|]. lra. }
    assert (UO : 0 <= u64 * Rabs O) by nra. assert (UW : 0 <= u64 * Rabs W) by nra.
    assert (UUW : u64 * (u64 * Rabs W) <= u64 * Rabs W) by nra. assert (UE : u64 * eta64 <= eta64) by nra.
    replace (u64 * (Rabs O + Rabs W * (1 + u64) + eta64)) with (u64 * Rabs O + u64 * Rabs W + u64 * (u64 * Rabs W) + u64 * eta64) in Q2 by ring.
    rewrite !Rmult_plus_distr_l, !Rmult_assoc. lra.
  - intros N. rewrite E3. apply rnd_le_V; [exact Fo|].
    assert (V (nmul a d) <= 0) by (rewrite E2; rewrite <- rnd_0; apply rnd_le; nra). lra.
  - intros N. rewrite E3. apply rnd_ge; [exact Fo|].
    assert (0 <= V (nmul a d)) by (rewrite E2; rewrite <- rnd_0; apply rnd_le; nra). lra.
Qed.

(** the same for the full step p + dp *)
Lemma full_ok o d : moderate o -> moderate d ->
  let t := nadd o d in
  isfin t /\ Rabs (V t - (V o + 1 * V d)) <= 3 * u64 * (Rabs (V o) + Rabs (V d)) + 2 * eta64 /\
  (V d <= 0 -> V t <= V o) /\ (0 <= V d -> V o <= V t).
Proof.
  intros Mo Md t. destruct (add_ok o d Mo Md) as (F & E & e & He & X). unfold t. split; [exact F|]. split; [|split].
  - rewrite E, X. replace ((V o + V d) * (1 + e) - (V o + 1 * V d)) with ((V o + V d) * e) by ring.
    rewrite Rabs_mult. pose proof (Rabs_triang (V o) (V d)). pose proof u64_pos. pose proof eta64_pos.
    pose proof (Rabs_pos e). pose proof (Rabs_pos (V o)). pose proof (Rabs_pos (V d)). pose proof (Rabs_pos (V o + V d)).
    assert (Rabs (V o + V d) * Rabs e <= (Rabs (V o) + Rabs (V d)) * u64) by (apply Rmult_le_compat; auto). nra.
  - intros N. rewrite E. apply rnd_le_V; [apply Mo|lra].
  - intros N. rewrite E. apply rnd_ge; [apply Mo|lra].
Qed.

(** enforcing the bounds moves a point that is nearly within them by little *)
Lemma clamp_dist lo hi o s c e : nleb lo (XF o) = true -> nleb (XF o) hi = true -> 0 <= e ->
  (forall l, lo = XF l -> l - e <= s) -> (forall h, hi = XF h -> s <= h + e) ->
  clamp1 (XF s) lo hi = XF c -> Rabs (c - s) <= e.
Proof.
  intros L H He HL HH. unfold clamp1, nmin, nmax.
  destruct lo as [l| | |], hi as [h| | |]; cbn in *; unfold rltb, rleb in *; try discriminate;
    try specialize (HL l eq_refl); try specialize (HH h eq_refl);
    repeat (match goal with |- context [Rlt_dec ?x ?y] => destruct (Rlt_dec x y)
                          | H : context [Rle_dec ?x ?y] |- _ => destruct (Rle_dec x y) end; cbn);
    try discriminate; intros Ea; injection Ea as <-; apply Rabs_le; lra.
Qed.

Lemma b1019 : bpow radix2 1019 + bpow radix2 1019 = bpow radix2 1020.
Proof. replace 1020%Z with (1 + 1019)%Z by lia. rewrite bpow_plus. change (bpow radix2 1) with 2. ring. Qed.
Lemma small_moderate x : upto 1019 x -> moderate x.
Proof. intros [F H]. split; [exact F|]. pose proof b1019. pose proof (bpow_gt_0 radix2 1019). lra. Qed.

Lemma fin_of x : valid x -> nfinite x = true -> isfin x.
Proof. intros W F. split; [exact W|]. destruct x; try discriminate; reflexivity. Qed.
Lemma zero_fin : isfin nzero. Proof. split; reflexivity. Qed.
Lemma zero_V : V nzero = 0. Proof. reflexivity. Qed.
Lemma one_V : V none1 = 1. Proof. unfold V, none1. cbn. unfold Defs.F2R. cbn. lra. Qed.
Lemma one_isfin : isfin none1. Proof. split; reflexivity. Qed.

Section Conservative.
Variable n : nat.
Variables p dp pl pu : nat -> spec_float.
Hypothesis Sp : forall i, (i < n)%nat -> upto 1019 (p i).
Hypothesis Sd : forall i, (i < n)%nat -> upto 1019 (dp i).
Hypothesis Wl : forall i, (i < n)%nat -> valid (pl i).
Hypothesis Wu : forall i, (i < n)%nat -> valid (pu i).
Hypothesis Lo : forall i, (i < n)%nat -> nleb (pl i) (p i) = true.
Hypothesis Hi : forall i, (i < n)%nat -> nleb (p i) (pu i) = true.

Let Mp i (I : (i < n)%nat) := small_moderate _ (Sp i I).
Let Md i (I : (i < n)%nat) := small_moderate _ (Sd i I).

(** variable i is held: it sits on the bound that dp would violate *)
Definition low_held (i : nat) : bool := neqb (p i) (pl i) && nltb (dp i) nzero.
Definition high_held (i : nat) : bool := neqb (p i) (pu i) && ngtb (dp i) nzero.
Definition low_viol (i : nat) : bool := nfinite (pl i) && nltb (nadd (p i) (dp i)) (pl i).
Definition high_viol (i : nat) : bool := nfinite (pu i) && ngtb (nadd (p i) (dp i)) (pu i).

(** the bound h lies strictly between the old value and the end of the full step *)
Definition crosses (i : nat) (h : spec_float) : Prop :=
  isfin h /\ (V (p i) + V (dp i) < V h < V (p i) \/ V (p i) < V h < V (p i) + V (dp i)).
Definition factor (i : nat) (h : spec_float) : spec_float := ndiv (nsub h (p i)) (dp i).

Lemma low_crosses i : (i < n)%nat -> low_held i = false -> low_viol i = true ->
  isfin (pl i) /\ V (p i) + V (dp i) < V (pl i) < V (p i).
Proof.
  unfold low_held, low_viol. intros I NH HV. apply andb_prop in HV. destruct HV as [F L].
  pose proof (fin_of _ (Wl i I) F) as Fl. destruct (add_ok (p i) (dp i) (Mp i I) (Md i I)) as (Fa & Ea & _).
  rewrite fltb in L by assumption. apply rltb_true in L.
  assert (A : V (p i) + V (dp i) < V (pl i)).
  { destruct (Rlt_le_dec (V (p i) + V (dp i)) (V (pl i))) as [Q|Q]; [exact Q|].
    apply (rnd_ge _ _ Fl) in Q. lra. }
  pose proof (Lo i I) as B. rewrite fleb in B by (try exact Fl; apply Sp; exact I). apply rleb_true in B.
  split; [exact Fl|]. split; [exact A|]. destruct B as [B|B]; [exact B|]. exfalso.
  rewrite feqb in NH by (try exact Fl; apply Sp; exact I). rewrite fltb in NH by (try exact zero_fin; apply Sd; exact I).
  rewrite zero_V in NH. rewrite (proj2 (reqb_true _ _)) in NH by lra. rewrite (proj2 (rltb_true _ _)) in NH by lra. discriminate.
Qed.
Lemma high_crosses i : (i < n)%nat -> high_held i = false -> high_viol i = true ->
  isfin (pu i) /\ V (p i) < V (pu i) < V (p i) + V (dp i).
Proof.
  unfold high_held, high_viol, ngtb. intros I NH HV. apply andb_prop in HV. destruct HV as [F L].
  pose proof (fin_of _ (Wu i I) F) as Fl. destruct (add_ok (p i) (dp i) (Mp i I) (Md i I)) as (Fa & Ea & _).
  rewrite fltb in L by assumption. apply rltb_true in L.
  assert (A : V (pu i) < V (p i) + V (dp i)).
  { destruct (Rlt_le_dec (V (pu i)) (V (p i) + V (dp i))) as [Q|Q]; [exact Q|].
    apply (rnd_le_V _ _ Fl) in Q. lra. }
  pose proof (Hi i I) as B. rewrite fleb in B by (try exact Fl; apply Sp; exact I). apply rleb_true in B.
  split; [exact Fl|]. split; [|exact A]. destruct B as [B|B]; [exact B|]. exfalso.
  rewrite feqb in NH by (try exact Fl; apply Sp; exact I). rewrite fltb in NH by (try exact zero_fin; apply Sd; exact I).
  rewrite zero_V in NH. rewrite (proj2 (reqb_true _ _)) in NH by lra. rewrite (proj2 (rltb_true _ _)) in NH by lra. discriminate.
Qed.

Lemma factor_ok i h : (i < n)%nat -> crosses i h ->
  isfin (factor i h) /\ 0 <= V (factor i h) <= 1 /\
  Rabs (V (factor i h) - (V h - V (p i)) / V (dp i)) <= 4 * u64 /\ 0 < (V h - V (p i)) / V (dp i) < 1.
Proof.
  intros I [Fh O]. apply alphai_ok; auto; [|tauto].
  split; [exact Fh|]. pose proof (Sp i I) as [_ B1]. pose proof (Sd i I) as [_ B2]. pose proof b1019.
  apply Rabs_le_inv in B1, B2. apply Rabs_le. lra.
Qed.

(** the bound that limits variable i, if any *)
Definition limit (i : nat) (h : spec_float) (s : Z) : Prop :=
  low_held i = false /\ high_held i = false /\
  ((s = (-1)%Z /\ h = pl i /\ low_viol i = true) \/ (s = 1%Z /\ h = pu i /\ low_viol i = false /\ high_viol i = true)).
Lemma limit_crosses i h s : (i < n)%nat -> limit i h s -> crosses i h.
Proof.
  intros I (A & B & [(_ & -> & C)|(_ & -> & _ & C)]).
  - destruct (low_crosses i I A C) as [F O]. split; [exact F|now left].
  - destruct (high_crosses i I B C) as [F O]. split; [exact F|now right].
Qed.

(** the state of the scan after the first k variables *)
Definition scanned (k : nat) (st : spec_float * nat * Z) : Prop :=
  let '(alpha, j, lu) := st in
  isfin alpha /\ 0 <= V alpha <= 1 /\
  (forall i h s, (i < k)%nat -> limit i h s -> V alpha <= V (factor i h)) /\
  ((lu = 0%Z /\ alpha = none1) \/
   exists h, (j < k)%nat /\ (lu = 1%Z \/ lu = (-1)%Z) /\ limit j h lu /\ alpha = factor j h /\ V alpha < 1).

Lemma limit_fun i h h' s s' : limit i h s -> limit i h' s' -> h = h'.
Proof. unfold limit. intuition congruence. Qed.

Lemma scan_step k st : (k < n)%nat -> scanned k st -> scanned (S k) (conservative_iter p dp pl pu st k).
Proof.
  destruct st as [[alpha j] lu]. intros I (F & A01 & ALL & W).
  assert (KEEP : (forall h s, limit k h s -> V alpha <= V (factor k h)) -> scanned (S k) (alpha, j, lu)).
  { intros HK. split; [exact F|]. split; [exact A01|]. split.
    - intros i h s Hi' L. destruct (Nat.eq_dec i k) as [->|Ne]; [now apply (HK h s)|]. apply (ALL i h s); [lia|exact L].
    - destruct W as [W|(h & Hj & R)]; [now left|]. right. exists h. split; [lia|exact R]. }
  assert (TAKE : forall h s, (s = 1%Z \/ s = (-1)%Z) -> limit k h s ->
    scanned (S k) (if nltb (factor k h) alpha then (nmin (factor k h) none1, k, s) else (alpha, j, lu))).
  { intros h s Hs L. destruct (factor_ok k h I (limit_crosses k h s I L)) as (Ff & F01 & _ & _).
    destruct (nltb (factor k h) alpha) eqn:E.
    - rewrite fltb in E by assumption. apply rltb_true in E.
      assert (M : nmin (factor k h) none1 = factor k h).
      { unfold nmin. rewrite fltb by (try assumption; exact one_isfin). rewrite one_V.
        destruct (rltb 1 (V (factor k h))) eqn:Q; [|reflexivity]. apply rltb_true in Q. lra. }
      rewrite M. split; [exact Ff|]. split; [exact F01|]. split.
      + intros i h' s' Hi' L'. destruct (Nat.eq_dec i k) as [->|Ne].
        * rewrite (limit_fun _ _ _ _ _ L' L). lra.
        * assert (V alpha <= V (factor i h')) by (apply (ALL i h' s'); [lia|exact L']). lra.
      + right. exists h. split; [lia|]. split; [exact Hs|]. split; [exact L|]. split; [reflexivity|lra].
    - rewrite fltb in E by assumption. apply KEEP. intros h' s' L'. rewrite (limit_fun _ _ _ _ _ L' L).
      destruct (Rlt_dec (V (factor k h)) (V alpha)) as [Q|Q]; [|lra]. apply rltb_true in Q. congruence. }
  unfold conservative_iter.
  change (neqb (p k) (pl k) && nltb (dp k) nzero) with (low_held k).
  change (neqb (p k) (pu k) && ngtb (dp k) nzero) with (high_held k).
  change (nfinite (pl k) && nltb (nadd (p k) (dp k)) (pl k)) with (low_viol k).
  change (nfinite (pu k) && ngtb (nadd (p k) (dp k)) (pu k)) with (high_viol k).
  change (ndiv (nsub (pl k) (p k)) (dp k)) with (factor k (pl k)).
  change (ndiv (nsub (pu k) (p k)) (dp k)) with (factor k (pu k)). cbv zeta.
  destruct (low_held k) eqn:E1; [apply KEEP; intros h s (Q & _); congruence|].
  destruct (high_held k) eqn:E2; [apply KEEP; intros h s (_ & Q & _); congruence|].
  destruct (low_viol k) eqn:E3; [apply TAKE; [tauto|split; [exact E1|split; [exact E2|left; auto]]]|].
  destruct (high_viol k) eqn:E4; [apply TAKE; [tauto|split; [exact E1|split; [exact E2|right; auto]]]|].
  apply KEEP. intros h s (_ & _ & [(_ & _ & Q)|(_ & _ & _ & Q)]); congruence.
Qed.

Lemma scan_ok : scanned n (conservative_scan n p dp pl pu).
Proof.
  unfold conservative_scan.
  assert (G : forall k, (k <= n)%nat -> scanned k (fold_left (conservative_iter p dp pl pu) (seq 0 k) (none1, n, 0%Z))).
  { induction k as [|k IH]; intros Hk.
    - cbn [seq fold_left]. split; [exact one_isfin|]. split; [rewrite one_V; lra|]. split; [intros i h s Q; lia|now left].
    - rewrite seq_S, fold_left_app. cbn [fold_left]. apply scan_step; [lia|]. apply IH. lia. }
  apply G. lia.
Qed.

(** the point reached with the factor alpha is nearly within the bounds *)
Lemma nearly_within i alpha : (i < n)%nat -> low_held i = false -> high_held i = false ->
  isfin alpha -> 0 <= V alpha <= 1 -> (forall h s, limit i h s -> V alpha <= V (factor i h)) ->
  let e := 4 * u64 * (Rabs (V (p i)) + Rabs (V (dp i))) in
  let s := V (p i) + V alpha * V (dp i) in
  (forall l, xof (pl i) = XF l -> l - e <= s) /\ (forall h, xof (pu i) = XF h -> s <= h + e).
Proof.
  intros I NL NH F A01 ALL e s.
  destruct (add_ok (p i) (dp i) (Mp i I) (Md i I)) as (Fa & Ea & x & Hx & Xa).
  pose proof u64_pos as UP. pose proof u64_val as UV.
  pose proof (Rabs_pos (V (p i))) as PP. pose proof (Rabs_pos (V (dp i))) as PD.
  assert (E0 : 0 <= u64 * Rabs (V (p i))) by nra. assert (E1 : 0 <= u64 * Rabs (V (dp i))) by nra.
  assert (DX : Rabs ((V (p i) + V (dp i)) * x) <= u64 * Rabs (V (p i)) + u64 * Rabs (V (dp i))).
  { rewrite Rabs_mult, <- Rmult_plus_distr_l, Rmult_comm. apply Rmult_le_compat; auto using Rabs_pos, Rabs_triang. }
  apply Rabs_le_inv in DX.
  assert (Ee : e = 4 * (u64 * Rabs (V (p i))) + 4 * (u64 * Rabs (V (dp i)))) by (unfold e; ring).
  assert (AD : 0 <= V (dp i) -> 0 <= V alpha * V (dp i) <= V (dp i)) by (intros; split; nra).
  assert (AD' : V (dp i) <= 0 -> V (dp i) <= V alpha * V (dp i) <= 0) by (intros; split; nra).
  split.
  - intros l Hl. destruct (xof_inv _ _ (Wl i I) Hl) as [Fl Vl].
    pose proof (Lo i I) as B. rewrite fleb in B by (try exact Fl; apply Sp; exact I). apply rleb_true in B.
    destruct (low_viol i) eqn:LV.
    + assert (LM : limit i (pl i) (-1)) by (split; [exact NL|split; [exact NH|left; auto]]).
      pose proof (ALL _ _ LM) as LE. destruct (factor_ok i (pl i) I (limit_crosses _ _ _ I LM)) as (_ & _ & Q & R01).
      destruct (low_crosses i I NL LV) as [_ [C1 C2]].
      set (r := (V (pl i) - V (p i)) / V (dp i)) in *. apply Rabs_le_inv in Q.
      assert (Er : r * V (dp i) = V (pl i) - V (p i)) by (unfold r; field; lra).
      assert (AB : Rabs (V (dp i)) = - V (dp i)) by (apply Rabs_left; lra).
      rewrite Ee, AB. unfold s. rewrite <- Vl. rewrite AB in E1.
      assert ((r + 4 * u64) * V (dp i) <= V alpha * V (dp i)) by nra. nra.
    + destruct (Rle_dec 0 (V (dp i))) as [D0|D0].
      * specialize (AD D0). unfold s. rewrite Ee, <- Vl. lra.
      * assert (D1 : V (dp i) <= 0) by lra. specialize (AD' D1).
        assert (NV : V (pl i) <= V (nadd (p i) (dp i))).
        { unfold low_viol in LV. replace (nfinite (pl i)) with true in LV.
          - cbn [andb] in LV. rewrite fltb in LV by assumption. apply rltb_false in LV. lra.
          - destruct Fl as [_ Fl]. destruct (pl i); try discriminate; reflexivity. }
        rewrite Ea, Xa in NV. unfold s. rewrite Ee, <- Vl. nra.
  - intros h Hh. destruct (xof_inv _ _ (Wu i I) Hh) as [Fl Vl].
    pose proof (Hi i I) as B. rewrite fleb in B by (try exact Fl; apply Sp; exact I). apply rleb_true in B.
    destruct (high_viol i) eqn:LV.
    + destruct (high_crosses i I NH LV) as [_ [C1 C2]].
      assert (NLV : low_viol i = false).
      { destruct (low_viol i) eqn:Q; [|reflexivity]. destruct (low_crosses i I NL Q) as [_ [C3 C4]]. lra. }
      assert (LM : limit i (pu i) 1) by (split; [exact NL|split; [exact NH|right; auto]]).
      pose proof (ALL _ _ LM) as LE. destruct (factor_ok i (pu i) I (limit_crosses _ _ _ I LM)) as (_ & _ & Q & R01).
      set (r := (V (pu i) - V (p i)) / V (dp i)) in *. apply Rabs_le_inv in Q.
      assert (Er : r * V (dp i) = V (pu i) - V (p i)) by (unfold r; field; lra).
      assert (AB : Rabs (V (dp i)) = V (dp i)) by (apply Rabs_right; lra).
      rewrite Ee, AB. unfold s. rewrite <- Vl. rewrite AB in E1.
      assert (V alpha * V (dp i) <= (r + 4 * u64) * V (dp i)) by nra. nra.
    + destruct (Rle_dec (V (dp i)) 0) as [D0|D0].
      * specialize (AD' D0). unfold s. rewrite Ee, <- Vl. lra.
      * assert (D1 : 0 <= V (dp i)) by lra. specialize (AD D1).
        assert (NV : V (nadd (p i) (dp i)) <= V (pu i)).
        { unfold high_viol, ngtb in LV. replace (nfinite (pu i)) with true in LV.
          - cbn [andb] in LV. rewrite fltb in LV by assumption. apply rltb_false in LV. lra.
          - destruct Fl as [_ Fl]. destruct (pu i); try discriminate; reflexivity. }
        rewrite Ea, Xa in NV. unfold s. rewrite Ee, <- Vl. nra.
Qed.

Lemma tol_eq : bpow radix2 (-50) = 8 * u64.
Proof. unfold u64. change 8 with (bpow radix2 3). now rewrite <- bpow_plus. Qed.

Lemma held_blocked i : (i < n)%nat ->
  (low_held i || high_held i = true <->
   blocked (fun i => V (p i)) (fun i => V (dp i)) (fun i => xof (pl i)) (fun i => xof (pu i)) i).
Proof.
  intros I. pose proof (Sp i I) as [Fp _]. pose proof (Sd i I) as [Fd _]. unfold low_held, high_held, ngtb, blocked.
  rewrite !fltb by (assumption || exact zero_fin). rewrite zero_V.
  assert (EQ : forall h, valid h -> neqb (p i) h = true <-> XF (V (p i)) = xof h).
  { intros h Wh. destruct (valid_cases h Wh) as [F|[[b ->]| ->]].
    - rewrite feqb by assumption. rewrite reqb_true, xof_fin by exact F. split; [now intros ->|now intros [= ->]].
    - destruct Fp as [_ Fp]. destruct (p i) as [[]| [] | | []]; try discriminate Fp; destruct b; cbn; split; intros Q; discriminate Q.
    - destruct Fp as [_ Fp]. destruct (p i) as [[]| [] | | []]; try discriminate Fp; cbn; split; intros Q; discriminate Q. }
  rewrite orb_true_iff, !andb_true_iff, !rltb_true, (EQ _ (Wl i I)), (EQ _ (Wu i I)). reflexivity.
Qed.

Theorem conservative_round :
  let P i := V (p i) in let D i := V (dp i) in let L i := xof (pl i) in let U i := xof (pu i) in
  let '(p', alpha) := performConservativeStep n p dp pl pu in
  isfin alpha /\ 0 <= V alpha <= 1 /\
  (forall i, (i < n)%nat -> isfin (p' i)) /\
  (forall i, (i < n)%nat -> blocked P D L U i -> V (p' i) = P i) /\
  (forall i, (i < n)%nat -> ~ blocked P D L U i ->
     Rabs (V (p' i) - (P i + V alpha * D i)) <= bpow radix2 (-50) * (Rabs (P i) + Rabs (D i)) + bpow radix2 (-1073)) /\
  (V alpha < 1 -> exists j, (j < n)%nat /\ ~ blocked P D L U j /\ (xof (p' j) = L j \/ xof (p' j) = U j) /\
     forall b, V alpha + bpow radix2 (-51) < b -> ~ within (L j) (U j) (P j + b * D j)).
Proof.
  intros P D L U. unfold performConservativeStep. pose proof scan_ok as SC.
  destruct (conservative_scan n p dp pl pu) as [[alpha j] lu]. destruct SC as (F & A01 & ALL & W).
  set (p1 := if negb (lu =? 0)%Z then _ else _).
  assert (BND : forall i, (i < n)%nat -> nleb (pl i) (p i) = true /\ nleb (p i) (pu i) = true) by auto.
  assert (ETA : 2 * eta64 <= bpow radix2 (-1073)) by (unfold eta64; change 2 with (bpow radix2 1); rewrite <- bpow_plus; apply bpow_le; lia).
  pose proof eta64_pos as EP. pose proof u64_pos as UP. pose proof u64_val as UV.
  (* the entries before the bounds are enforced *)
  assert (P1 : forall i, (i < n)%nat -> isfin (p1 i) /\
     Rabs (V (p1 i) - (P i + V alpha * D i)) <= 4 * u64 * (Rabs (P i) + Rabs (D i)) + 2 * eta64 /\
     (low_held i || high_held i = true -> (D i <= 0 -> V (p1 i) <= P i) /\ (0 <= D i -> P i <= V (p1 i)))).
  { intros i I. unfold p1.
    assert (UPi : 0 <= u64 * Rabs (P i)) by (apply Rmult_le_pos; [lra|apply Rabs_pos]).
    assert (UDi : 0 <= u64 * Rabs (D i)) by (apply Rmult_le_pos; [lra|apply Rabs_pos]).
    destruct W as [[-> ->]|(h & Hj & Hlu & LM & Ea & A1)].
    - cbn [Z.eqb negb]. destruct (full_ok (p i) (dp i) (Mp i I) (Md i I)) as (F1 & E1 & C1).
      split; [exact F1|]. split; [|intros _; exact C1]. rewrite one_V. fold (P i) (D i) in E1. lra.
    - replace (lu =? 0)%Z with false by (destruct Hlu; subst lu; reflexivity). cbn [negb].
      destruct (Nat.eqb_spec i j) as [->|Ne].
      + assert (Eh : (if (lu =? -1)%Z then pl j else pu j) = h).
        { destruct LM as (_ & _ & [(-> & -> & _)|(-> & -> & _)]); reflexivity. }
        rewrite Eh. destruct (factor_ok j h I (limit_crosses _ _ _ I LM)) as (_ & _ & Q & R01).
        pose proof (limit_crosses _ _ _ I LM) as [Fh O]. split; [exact Fh|]. split.
        * rewrite Ea. set (r := (V h - V (p j)) / V (dp j)) in *. fold (P j) (D j) in *.
          assert (Er : r * D j = V h - P j) by (unfold r; field; fold (D j); destruct O; lra).
          replace (V h - (P j + V (factor j h) * D j)) with ((r - V (factor j h)) * D j) by (rewrite Rmult_minus_distr_r, Er; ring).
          rewrite Rabs_mult, Rabs_minus_sym. pose proof (Rabs_pos (D j)). 
          assert (Rabs (V (factor j h) - r) * Rabs (D j) <= 4 * u64 * Rabs (D j)) by (apply Rmult_le_compat_r; assumption). lra.
        * destruct LM as (LM1 & LM2 & _). rewrite LM1, LM2. discriminate.
      + destruct (move_ok alpha (p i) (dp i) F A01 (Mp i I) (Md i I)) as (F1 & E1 & C1).
        split; [exact F1|]. split; [|intros _; exact C1]. fold (P i) (D i) in E1. lra. }
  split; [exact F|]. split; [exact A01|]. split; [|split; [|split]].
  - intros i I. destruct (P1 i I) as (F1 & _). destruct (BND i I) as [B1 B2].
    exact (proj1 (clamp_round (p1 i) 0 (pl i) (pu i) (p i) F1 (Wl i I) (Wu i I) (proj1 (Sp i I)) B1 B2)).
  - intros i I HB. destruct (P1 i I) as (F1 & _ & C1). destruct (BND i I) as [B1 B2].
    destruct (clamp_round (p1 i) (P i) (pl i) (pu i) (p i) F1 (Wl i I) (Wu i I) (proj1 (Sp i I)) B1 B2) as (F2 & _ & _).
    specialize (C1 (proj2 (held_blocked i I) HB)).
    change (nmin (nmax (p1 i) (pl i)) (pu i)) with (clamp1 (p1 i) (pl i) (pu i)).
    destruct (valid_max (p1 i) (pl i) (isfin_valid _ F1) (Wl i I)) as [W1 X1]. destruct (valid_min _ (pu i) W1 (Wu i I)) as [W2 X2].
    rewrite X1, (xof_fin _ F1) in X2. fold (clamp1 (p1 i) (pl i) (pu i)) in X2. rewrite (xof_fin _ F2) in X2.
    rewrite xleb_of in B1, B2 by (auto; apply isfin_valid, Sp; exact I). rewrite (xof_fin _ (proj1 (Sp i I))) in B1, B2.
    destruct HB as [[EL DN]|[EU DP]].
    + destruct C1 as [C1 _]. assert (C2 : V (p1 i) <= P i) by (apply C1; lra). unfold L in EL. rewrite <- EL in X2. clear C1.
      unfold nmax, nmin in X2. cbn in X2. unfold rltb in X2. destruct (xof (pu i)) as [h| | |]; cbn in B2; try discriminate; cbn in X2; unfold rltb, rleb in *;
        repeat match goal with H : context [Rlt_dec ?x ?y] |- _ => destruct (Rlt_dec x y); cbn in H; unfold rltb in H
                             | H : context [Rle_dec ?x ?y] |- _ => destruct (Rle_dec x y) end; try discriminate; injection X2 as X2; unfold P in *; lra.
    + destruct C1 as [_ C1]. assert (C2 : P i <= V (p1 i)) by (apply C1; lra). unfold U in EU. rewrite <- EU in X2. clear C1.
      unfold nmax, nmin in X2. cbn in X2. unfold rltb in X2. destruct (xof (pl i)) as [h| | |]; cbn in B1; try discriminate; cbn in X2; unfold rltb, rleb in *;
        repeat match goal with H : context [Rlt_dec ?x ?y] |- _ => destruct (Rlt_dec x y); cbn in H; unfold rltb in H
                             | H : context [Rle_dec ?x ?y] |- _ => destruct (Rle_dec x y) end; try discriminate; injection X2 as X2; unfold P in *; lra.
  - intros i I NB. destruct (P1 i I) as (F1 & E1 & _). destruct (BND i I) as [B1 B2].
    destruct (clamp_round (p1 i) (P i + V alpha * D i) (pl i) (pu i) (p i) F1 (Wl i I) (Wu i I) (proj1 (Sp i I)) B1 B2) as (F2 & _ & c & Ec & Dc).
    change (nmin (nmax (p1 i) (pl i)) (pu i)) with (clamp1 (p1 i) (pl i) (pu i)).
    assert (NHH : low_held i = false /\ high_held i = false).
    { destruct (low_held i || high_held i) eqn:Q; [exfalso; apply NB, (held_blocked i I), Q|]. now apply orb_false_iff. }
    destruct NHH as [NL NH].
    destruct (nearly_within i alpha I NL NH F A01 (fun h s => ALL i h s I)) as [Q1 Q2].
    rewrite xleb_of in B1, B2 by (auto; apply isfin_valid, Sp; exact I). rewrite (xof_fin _ (proj1 (Sp i I))) in B1, B2.
    assert (E5 : 0 <= 4 * u64 * (Rabs (V (p i)) + Rabs (V (dp i)))).
    { pose proof (Rabs_pos (V (p i))). pose proof (Rabs_pos (V (dp i))). apply Rmult_le_pos; lra. }
    pose proof (clamp_dist _ _ _ _ _ _ B1 B2 E5 Q1 Q2 Ec) as DD. fold (P i) (D i) in DD.
    replace (V (clamp1 (p1 i) (pl i) (pu i)) - (P i + V alpha * D i)) with ((V (clamp1 (p1 i) (pl i) (pu i)) - c) + (c - (P i + V alpha * D i))) by ring.
    eapply Rle_trans; [apply Rabs_triang|]. rewrite tol_eq. lra.
  - intros A1. destruct W as [[-> ->]|(h & Hj & Hlu & LM & Ea & _)]; [rewrite one_V in A1; lra|].
    exists j. split; [exact Hj|]. pose proof LM as (NL & NH & LM').
    split. { intros HB. apply (held_blocked j Hj) in HB. rewrite NL, NH in HB. discriminate. }
    destruct (BND j Hj) as [B1 B2].
    assert (E1 : p1 j = h).
    { unfold p1. replace (lu =? 0)%Z with false by (destruct Hlu; subst lu; reflexivity). cbn [negb]. rewrite Nat.eqb_refl.
      destruct LM' as [(-> & -> & _)|(-> & -> & _)]; reflexivity. }
    pose proof (limit_crosses _ _ _ Hj LM) as [Fh O]. destruct (factor_ok j h Hj (conj Fh O)) as (_ & _ & Q & R01).
    rewrite <- Ea in Q. set (r := (V h - V (p j)) / V (dp j)) in *.
    assert (Er : r * V (dp j) = V h - V (p j)) by (unfold r; field; destruct O; lra).
    apply Rabs_le_inv in Q.
    assert (T4 : bpow radix2 (-51) = 4 * u64) by (unfold u64; change 4 with (bpow radix2 2); now rewrite <- bpow_plus).
    rewrite xleb_of in B1, B2 by (auto; apply isfin_valid, Sp; exact Hj). rewrite (xof_fin _ (proj1 (Sp j Hj))) in B1, B2.
    assert (X : xof (nmin (nmax (p1 j) (pl j)) (pu j)) = nmin (nmax (XF (V h)) (xof (pl j))) (xof (pu j))).
    { rewrite E1. destruct (valid_max h (pl j) (isfin_valid _ Fh) (Wl j Hj)) as [W1 X1]. destruct (valid_min _ (pu j) W1 (Wu j Hj)) as [W2 X2].
      rewrite X2, X1, (xof_fin _ Fh). reflexivity. }
    rewrite X. clear X.
    destruct LM' as [(_ & Eh & HV)|(_ & Eh & _ & HV)].
    + destruct (low_crosses j Hj NL HV) as [_ [C1 C2]]. rewrite <- Eh in C1, C2. unfold L, U. rewrite <- Eh, (xof_fin _ Fh). split.
      * left. unfold nmax, nmin. destruct (xof (pu j)) as [k| | |]; cbn in B2; try discriminate; cbn; unfold rltb, rleb in *;
        repeat (match goal with H : context [Rle_dec ?x ?y] |- _ => destruct (Rle_dec x y)
                             | |- context [Rlt_dec ?x ?y] => destruct (Rlt_dec x y) end; cbn; unfold rltb); try discriminate; try reflexivity; lra.
      * intros b Hb [G _]. cbn in G. apply rleb_true in G. unfold P, D in G. nra.
    + destruct (high_crosses j Hj NH HV) as [_ [C1 C2]]. rewrite <- Eh in C1, C2. unfold L, U. rewrite <- Eh, (xof_fin _ Fh). split.
      * right. unfold nmax, nmin. destruct (xof (pl j)) as [k| | |]; cbn in B1; try discriminate; cbn; unfold rltb, rleb in *;
        repeat (match goal with H : context [Rle_dec ?x ?y] |- _ => destruct (Rle_dec x y)
                             | |- context [Rlt_dec ?x ?y] => destruct (Rlt_dec x y) end; cbn; unfold rltb); try discriminate; try reflexivity; lra.
      * intros b Hb [_ G]. cbn in G. apply rleb_true in G. unfold P, D in G. nra.
Qed.
End Conservative.

(** the rounding of a number in the normal range *)
Lemma rnd_rel x : bpow radix2 (-1022) <= Rabs x -> exists d, Rabs d <= u64 /\ rnd x = x * (1 + d).
Proof.
  intros H. destruct (relative_error_N_FLT_ex radix2 (-1074) 53 ltac:(lia) (fun z => negb (Z.even z)) x H) as (d & Hd & E).
  exists d. split; [|exact E]. apply Rle_trans with (1 := Hd). unfold u64. apply Req_le.
  change (/ 2) with (bpow radix2 (-1)). rewrite <- bpow_plus. reflexivity.
Qed.

(** a quotient of numbers of equal sign: a number, or +inf when it is too large *)
Lemma fdiv_pos x y : isfin x -> isfin y -> V y < 0 -> V x < 0 ->
  (isfin (ndiv x y) /\ V (ndiv x y) = rnd (V x / V y)) \/
  (ndiv x y = S754_infinity false /\ 1 <= V x / V y).
Proof.
  intros Fx Fy N X. destruct (Rle_dec (Rabs (V x / V y)) (bpow radix2 1023)) as [S|S].
  - left. apply fdiv; auto. lra.
  - assert (1 <= V x / V y).
    { assert (0 < V x / V y). { replace (V x / V y) with ((- V x) / (- V y)) by (field; lra). apply Rdiv_lt_0_compat; lra. }
      rewrite Rabs_pos_eq in S by lra. apply Rnot_le_lt in S. apply Rle_trans with (bpow radix2 1023); [|lra].
      change 1 with (bpow radix2 0). apply bpow_le. lia. }
    destruct (to_B _ Fx) as (a & -> & Fa & Ea), (to_B _ Fy) as (b & -> & Fb & Eb).
    rewrite Ea, Eb in *. rewrite div_equiv.
    generalize (Bdiv_correct p64 e64 Hprec Hmax mode_NE a b ltac:(lra)).
    case Rlt_bool.
    + intros (E & F & _). left. rewrite Fa in F. destruct (of_B _ F) as [I ->]. split; [exact I|exact E].
    + intros E. right. split; [|exact H]. rewrite E.
      assert (SG : forall c : BF, is_finite c = true -> B2R c < 0 -> Bsign c = true).
      { intros c Fc Hc. destruct c as [| | |[] m e Hm]; cbn in *; try lra; try discriminate; try reflexivity.
        exfalso. revert Hc. unfold Defs.F2R. cbn. pose proof (bpow_gt_0 radix2 e). intros. assert (0 < IZR (Z.pos m)) by (apply IZR_lt; lia). nra. }
      rewrite (SG a Fa X), (SG b Fb N). reflexivity.
Qed.

Lemma opp_ok x : isfin x -> isfin (nopp x) /\ V (nopp x) = - V x.
Proof.
  intros [W F]. destruct x as [b| | |b m e]; try discriminate.
  - split; [split; reflexivity|]. cbn. unfold V. cbn. lra.
  - split; [split; [exact W|reflexivity]|]. unfold V. cbn. destruct b; cbn; rewrite <- Float_prop.F2R_Zopp; reflexivity.
Qed.

Definition normal : R := bpow radix2 (-1022).
Lemma normal_pos : 0 < normal. Proof. apply bpow_gt_0. Qed.

Section Fraction.
Variable tau : spec_float.
Hypothesis Ft : isfin tau.
Hypothesis T01 : 0 < V tau < 1.

(** the trial factor for the distance q to the boundary and the decrease d *)
Definition trial (q d : spec_float) : spec_float := ndiv (nmul (nopp tau) q) d.

Lemma trial_ok q d : isfin q -> isfin d -> 0 < V q -> V q <= bpow radix2 1023 -> V d < 0 ->
  normal <= V tau * V q -> 2 * normal * - V d <= V tau * V q ->
  let r := V tau * V q / - V d in
  (isfin (trial q d) /\ exists e, Rabs e <= 3 * u64 /\ V (trial q d) = r * (1 + e)) \/
  (trial q d = S754_infinity false /\ 1 <= r * (1 + 3 * u64)).
Proof.
  intros Fq Fd Q0 QM D0 N1 N2 r. unfold trial. destruct (opp_ok tau Ft) as [Fo Vo].
  pose proof u64_pos as UP. pose proof u64_val as UV. pose proof normal_pos as NP.
  assert (TQ : 0 < V tau * V q <= V q) by (split; nra).
  destruct (fmul (nopp tau) q Fo Fq) as [Fm Em].
  { rewrite Vo, Rabs_left by nra. lra. }
  set (m := nmul (nopp tau) q) in *.
  destruct (rnd_rel (V (nopp tau) * V q)) as (d1 & H1 & X1). { rewrite Vo, Rabs_left by nra. fold normal. lra. }
  rewrite Vo in *. rewrite X1 in Em. apply Rabs_le_inv in H1.
  assert (Hm : V m < 0) by (rewrite Em; nra).
  assert (R0 : 0 < r). { unfold r. apply Rdiv_lt_0_compat; lra. }
  assert (Eq : V m / V d = r * (1 + d1)). { rewrite Em. unfold r. field. lra. }
  assert (RN : normal <= V m / V d).
  { rewrite Eq. assert (2 * normal <= r).
    { unfold r. apply Rmult_le_reg_r with (- V d); [lra|]. replace (V tau * V q / - V d * - V d) with (V tau * V q) by (field; lra). exact N2. }
    nra. }
  destruct (fdiv_pos m d Fm Fd D0 Hm) as [[F E]|[E G]].
  - left. split; [exact F|]. destruct (rnd_rel (V m / V d)) as (d2 & H2 & X2). { rewrite Rabs_pos_eq; fold normal; lra. }
    apply Rabs_le_inv in H2. exists (d1 + d2 + d1 * d2). split; [apply Rabs_le; nra|]. rewrite E, X2, Eq. ring.
  - right. split; [exact E|]. rewrite Eq in G. nra.
Qed.

Variables (n : nat) (p dp : nat -> spec_float).
Hypothesis Fp : forall i, (i < n)%nat -> isfin (p i) /\ 0 < V (p i) <= bpow radix2 1023.
Hypothesis Fd : forall i, (i < n)%nat -> isfin (dp i).
Hypothesis N1 : forall i, (i < n)%nat -> normal <= V tau * V (p i).
Hypothesis N2 : forall i, (i < n)%nat -> 2 * normal * - V (dp i) <= V tau * V (p i).

Let r i := V tau * V (p i) / - V (dp i).
Definition frac_at (k : nat) (st : spec_float * nat) : Prop :=
  let '(alpha, j) := st in
  isfin alpha /\ 0 < V alpha <= 1 /\
  (forall i, (i < k)%nat -> V (dp i) < 0 -> V alpha <= r i * (1 + 3 * u64)) /\
  ((j = n /\ alpha = none1) \/
   ((j < k)%nat /\ V (dp j) < 0 /\ V alpha < 1 /\ exists e, Rabs e <= 3 * u64 /\ V alpha = r j * (1 + e))).

Lemma frac_step k st : (k < n)%nat -> frac_at k st -> frac_at (S k) (fraction_iter p dp tau st k).
Proof.
  destruct st as [alpha j]. intros I (F & A01 & ALL & W). pose proof u64_pos as UP. pose proof u64_val as UV.
  assert (KEEP : (V (dp k) < 0 -> V alpha <= r k * (1 + 3 * u64)) -> frac_at (S k) (alpha, j)).
  { intros HK. split; [exact F|]. split; [exact A01|]. split.
    - intros i Hi D. destruct (Nat.eq_dec i k) as [->|Ne]; [auto|]. apply ALL; [lia|exact D].
    - destruct W as [W|(Hj & R)]; [now left|]. right. split; [lia|exact R]. }
  unfold fraction_iter. cbn [fst]. rewrite fltb by (try exact zero_fin; auto). rewrite zero_V.
  destruct (rltb (V (dp k)) 0) eqn:E.
  2:{ apply rltb_false in E. apply KEEP. lra. }
  apply rltb_true in E. change (ndiv (nmul (nopp tau) (p k)) (dp k)) with (trial (p k) (dp k)).
  destruct (Fp k I) as [Fpk [P0 PM]].
  destruct (trial_ok (p k) (dp k) Fpk (Fd k I) P0 PM E (N1 k I) (N2 k I)) as [(Fq & e & He & Eq)|(Eq & G)]; fold (r k) in *.
  - cbv zeta. rewrite fltb by assumption. pose proof He as He'. apply Rabs_le_inv in He'.
    assert (R0 : 0 < r k). { unfold r. apply Rdiv_lt_0_compat; [apply Rmult_lt_0_compat; lra|lra]. }
    destruct (rltb (V (trial (p k) (dp k))) (V alpha)) eqn:L.
    + apply rltb_true in L. split; [exact Fq|]. split; [split; [rewrite Eq; nra|lra]|]. split.
      * intros i Hi D. destruct (Nat.eq_dec i k) as [->|Ne]; [rewrite Eq; nra|].
        assert (V alpha <= r i * (1 + 3 * u64)) by (apply ALL; [lia|exact D]). lra.
      * right. split; [lia|]. split; [exact E|]. split; [lra|]. exists e. auto.
    + apply rltb_false in L. apply KEEP. intros _. rewrite Eq in L. nra.
  - cbv zeta. rewrite Eq. assert (L : nltb (S754_infinity false) alpha = false).
    { destruct F as [_ F]. destruct alpha as [[]| | |[]]; try discriminate; reflexivity. }
    rewrite L. apply KEEP. intros _. lra.
Qed.

Lemma frac_ok : frac_at n (fractionToTheBoundary n p dp tau).
Proof.
  unfold fractionToTheBoundary.
  assert (G : forall k, (k <= n)%nat -> frac_at k (fold_left (fraction_iter p dp tau) (seq 0 k) (none1, n))).
  { induction k as [|k IH]; intros Hk.
    - cbn [seq fold_left]. split; [exact one_isfin|]. split; [rewrite one_V; lra|]. split; [intros i Q; lia|now left].
    - rewrite seq_S, fold_left_app. cbn [fold_left]. apply frac_step; [lia|]. apply IH. lia. }
  apply G. lia.
Qed.

Theorem fraction_round :
  let P i := V (p i) in let D i := V (dp i) in
  let '(alpha, j) := fractionToTheBoundary n p dp tau in
  isfin alpha /\ 0 < V alpha <= 1 /\
  (forall i, (i < n)%nat -> (1 - V tau * (1 + bpow radix2 (-51))) * P i <= P i + V alpha * D i) /\
  ((j = n /\ V alpha = 1) \/
   ((j < n)%nat /\ V alpha < 1 /\
    Rabs (P j + V alpha * D j - (1 - V tau) * P j) <= bpow radix2 (-51) * (V tau * P j))).
Proof.
  intros P D. pose proof frac_ok as G. destruct (fractionToTheBoundary n p dp tau) as [alpha j].
  destruct G as (F & A01 & ALL & W). split; [exact F|]. split; [exact A01|].
  assert (T4 : bpow radix2 (-51) = 4 * u64) by (unfold u64; change 4 with (bpow radix2 2); now rewrite <- bpow_plus).
  rewrite T4. pose proof u64_pos as UP. pose proof u64_val as UV.
  assert (RD : forall i, D i < 0 -> r i * - D i = V tau * P i).
  { intros i Di. unfold r, P, D in *. field. lra. }
  assert (TP : forall i, (i < n)%nat -> 0 < V tau * P i < P i).
  { intros i I. destruct (Fp i I) as [_ [P0 _]]. unfold P. split; nra. }
  split.
  - intros i I. pose proof (TP i I) as TPi. destruct (Rlt_dec (D i) 0) as [Di|Di].
    + pose proof (ALL i I Di) as A. pose proof (RD i Di) as RDi.
      assert (V alpha * - D i <= r i * (1 + 3 * u64) * - D i) by (apply Rmult_le_compat_r; lra).
      replace (r i * (1 + 3 * u64) * - D i) with ((1 + 3 * u64) * (V tau * P i)) in H by (rewrite <- RDi; ring). nra.
    + assert (0 <= V alpha * D i) by (apply Rmult_le_pos; lra). nra.
  - destruct W as [[-> ->]|(Hj & Dj & A1 & e & He & Ee)]; [left; split; [reflexivity|exact one_V]|].
    right. split; [exact Hj|]. split; [exact A1|]. fold (D j) in Dj. pose proof (RD j Dj) as RDj. pose proof (TP j Hj) as TPj.
    assert (VA : V alpha * D j = - (1 + e) * (V tau * P j)) by (rewrite Ee, <- RDj; ring).
    replace (P j + V alpha * D j - (1 - V tau) * P j) with (- e * (V tau * P j)) by (rewrite VA; ring).
    rewrite Rabs_mult, Rabs_Ropp, (Rabs_pos_eq (V tau * P j)) by lra.
    apply Rmult_le_compat_r; lra.
Qed.
End Fraction.

(** the computed point after the step is positive *)
Lemma fraction_update tau alpha x d : isfin alpha -> 0 < V alpha <= 1 -> moderate x -> moderate d ->
  0 < V tau <= 1 - bpow radix2 (-50) -> normal <= V tau * V x ->
  (1 - V tau * (1 + bpow radix2 (-51))) * V x <= V x + V alpha * V d ->
  isfin (nadd x (nmul alpha d)) /\ 0 < V (nadd x (nmul alpha d)).
Proof.
  intros Fa A01 Mx Md T N B.
  destruct (move_ok alpha x d Fa ltac:(lra) Mx Md) as (F & _ & _ & UP'). split; [exact F|].
  pose proof u64_pos as UP. pose proof u64_val as UV. pose proof normal_pos as NP. pose proof eta64_pos as EP.
  assert (T4 : bpow radix2 (-51) = 4 * u64) by (unfold u64; change 4 with (bpow radix2 2); now rewrite <- bpow_plus).
  rewrite T4, tol_eq in *.
  assert (X0 : 0 < V x). { destruct (Rle_dec (V x) 0); [|lra]. exfalso. nra. }
  assert (NX : normal <= V x) by nra.
  assert (ET : eta64 <= u64 * V x).
  { apply Rle_trans with (u64 * normal); [|nra]. unfold eta64, u64, normal. rewrite <- bpow_plus. apply bpow_le. lia. }
  destruct (Rle_dec 0 (V d)) as [D0|D0]; [specialize (UP' D0); lra|clear UP'].
  destruct (fmul alpha d Fa (proj1 Md)) as [Fm Em].
  { rewrite Rabs_mult, (Rabs_pos_eq (V alpha)) by lra. pose proof (proj2 Md). pose proof (Rabs_pos (V d)). pose proof b1020_23. nra. }
  assert (Mm : moderate (nmul alpha d)).
  { split; [exact Fm|]. rewrite Em. apply rnd_bpow; [lia|]. rewrite Rabs_mult, (Rabs_pos_eq (V alpha)) by lra. pose proof (proj2 Md). pose proof (Rabs_pos (V d)). nra. }
  destruct (add_ok x (nmul alpha d) Mx Mm) as (_ & Ea & e3 & H3 & X3). rewrite Ea, X3.
  destruct (rnd_err (V alpha * V d)) as (e1 & e2 & H1 & H2 & X1). rewrite Em, X1.
  apply Rabs_le_inv in H1, H2, H3. set (y := V alpha * V d) in *.
  assert (Y0 : y <= 0) by (unfold y; nra).
  assert (YB : - ((1 - 4 * u64) * V x) <= y).
  { assert (V tau * (1 + 4 * u64) <= 1 - 4 * u64) by nra. nra. }
  assert (YE : y * (1 + e1) >= - ((1 - 4 * u64) * V x) * (1 + u64)).
  { assert (0 <= (1 - 4 * u64) * V x) by (apply Rmult_le_pos; lra). nra. }
  assert (0 < V x + (y * (1 + e1) + e2)) by nra.
  apply Rmult_lt_0_compat; lra.
Qed.

(** performAggressiveStep *)
Lemma aggressive_round n p dp pl pu :
  (forall i, (i < n)%nat -> upto 1019 (p i) /\ upto 1019 (dp i) /\ valid (pl i) /\ valid (pu i) /\ within (xof (pl i)) (xof (pu i)) (V (p i))) ->
  forall i, (i < n)%nat -> let r := performAggressiveStep n p dp pl pu i in
  isfin r /\ exists z, performAggressiveStep n (fun i => XF (V (p i))) (fun i => XF (V (dp i))) (fun i => xof (pl i)) (fun i => xof (pu i)) i = XF z /\
    Rabs (V r - z) <= u64 * Rabs (V (p i) + V (dp i)).
Proof.
  intros H i I r. destruct (H i I) as (Sp & Sd & Wl & Wu & L & U).
  destruct (add_ok (p i) (dp i) (small_moderate _ Sp) (small_moderate _ Sd)) as (F & E & e & He & X).
  assert (L' : nleb (pl i) (p i) = true) by (rewrite xleb_of by (auto; apply isfin_valid, Sp); rewrite (xof_fin _ (proj1 Sp)); exact L).
  assert (U' : nleb (p i) (pu i) = true) by (rewrite xleb_of by (auto; apply isfin_valid, Sp); rewrite (xof_fin _ (proj1 Sp)); exact U).
  destruct (clamp_round (nadd (p i) (dp i)) (V (p i) + V (dp i)) (pl i) (pu i) (p i) F Wl Wu (proj1 Sp) L' U') as (F2 & _ & c & Ec & Dc).
  split; [exact F2|]. exists c. split; [exact Ec|]. eapply Rle_trans; [exact Dc|].
  rewrite E, X. replace ((V (p i) + V (dp i)) * (1 + e) - (V (p i) + V (dp i))) with ((V (p i) + V (dp i)) * e) by ring.
  rewrite Rabs_mult, Rmult_comm. apply Rmult_le_compat_r; [apply Rabs_pos|exact He].
Qed.
