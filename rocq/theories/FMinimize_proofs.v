(** minimizeBrent and minimizeGoldenSectionSearch in binary64. *)
From Coq Require Import Reals ZArith List Bool Lia Lra.
From Coq Require Import Floats.SpecFloat.
From Flocq Require Import Core BinarySingleNaN Relative Mult_error Plus_error.
From Verif Require Import Num Num_facts Minimize_model Minimize_spec Step_proofs Minimize_proofs Round_spec Float_proofs Round_proofs StepRound_proofs FSum_proofs FResidual_proofs.
Import ListNotations.
Local Open Scope R_scope.

(** ** Rounding errors as linear inequalities *)
Notation ee := (/ 9007199254740992).
Notation tiny := (/ 9223372036854775808).

Lemma tiny_eq : u64 / 1024 = tiny.
Proof. rewrite u64_val. field. Qed.

Lemma rnd_lin x : - (ee * Rabs x + tiny) <= rnd x - x <= ee * Rabs x + tiny.
Proof.
  destruct (rnd_err x) as (d & e & D & E & ->). pose proof eta_u as H. rewrite tiny_eq in H.
  rewrite u64_val in D. apply Rabs_le_inv in D, E.
  replace (x * (1 + d) + e - x) with (x * d + e) by ring.
  assert (- (ee * Rabs x) <= x * d <= ee * Rabs x).
  { destruct (abs_case x) as [[? ->]|[? ->]]; split; nra. }
  lra.
Qed.

Lemma rnd_lt_inv a b : rnd a < rnd b -> a < b.
Proof. intros H. apply Rnot_le_lt. intros K. apply rnd_le in K. lra. Qed.

(** a point that is not within the tolerance of both ends leaves room for one more step towards
    the middle *)
Lemma room_up m X M f1 : m <= X <= M -> Rabs X / 2199023255552 + / 17592186044416 <= f1 ->
  X <= rnd (rnd (m + M) / 2) ->
  2 * f1 - rnd (rnd (M - m) / 2) < rnd (rnd (m + M) / 2) - X -> f1 <= M - X.
Proof.
  intros B F L H.
  pose proof (rnd_lin (m + M)) as R1. pose proof (rnd_lin (M - m)) as R2.
  pose proof (rnd_lin (rnd (m + M) / 2)) as R3. pose proof (rnd_lin (rnd (M - m) / 2)) as R4.
  rewrite (Rabs_pos_eq (M - m)) in R2 by lra.
  assert (0 <= rnd (M - m)) by (rewrite <- rnd_0; apply rnd_le; lra).
  rewrite (Rabs_pos_eq (rnd (M - m) / 2)) in R4 by lra.
  set (s := rnd (m + M)) in *. set (mid := rnd (s / 2)) in *. set (d := rnd (M - m)) in *. set (h := rnd (d / 2)) in *.
  clearbody s mid d h.
  destruct (abs_case X) as [[? EX]|[? EX]]; rewrite EX in F;
  destruct (abs_case (m + M)) as [[? EM]|[? EM]]; rewrite EM in R1;
  destruct (abs_case (s / 2)) as [[? ES]|[? ES]]; rewrite ES in R3; lra.
Qed.

Lemma room_dn m X M f1 : m <= X <= M -> Rabs X / 2199023255552 + / 17592186044416 <= f1 ->
  rnd (rnd (m + M) / 2) <= X ->
  2 * f1 - rnd (rnd (M - m) / 2) < X - rnd (rnd (m + M) / 2) -> f1 <= X - m.
Proof.
  intros B F L H.
  assert (E1 : rnd (- M + - m) = - rnd (m + M)) by (rewrite <- rnd_opp; f_equal; ring).
  assert (E2 : rnd (rnd (- M + - m) / 2) = - rnd (rnd (m + M) / 2)) by (rewrite <- rnd_opp, E1; f_equal; field).
  pose proof (room_up (- M) (- X) (- m) f1 ltac:(lra)) as R. rewrite Rabs_Ropp, E2 in R.
  replace (- m - - M) with (M - m) in R by ring. specialize (R F ltac:(lra) ltac:(lra)). lra.
Qed.

(** ** Operations that cannot overflow *)
Lemma addB e x y : (0 <= e <= 1020)%Z -> upto e x -> upto e y -> upto (e + 1) (nadd x y) /\ V (nadd x y) = rnd (V x + V y).
Proof.
  intros He [Fx Bx] [Fy By].
  assert (B : Rabs (V x + V y) <= bpow radix2 (e + 1)).
  { rewrite bpow_plus. change (bpow radix2 1) with 2. eapply Rle_trans; [apply Rabs_triang|]. lra. }
  destruct (fadd x y Fx Fy) as [F E].
  { apply Rle_trans with (1 := B). apply bpow_le. lia. }
  split; [split; [exact F|]|exact E]. rewrite E. apply rnd_bpow; [lia|exact B].
Qed.
Lemma subB e x y : (0 <= e <= 1020)%Z -> upto e x -> upto e y -> upto (e + 1) (nsub x y) /\ V (nsub x y) = rnd (V x - V y).
Proof.
  intros He [Fx Bx] [Fy By].
  assert (B : Rabs (V x - V y) <= bpow radix2 (e + 1)).
  { rewrite bpow_plus. change (bpow radix2 1) with 2. unfold Rminus. eapply Rle_trans; [apply Rabs_triang|]. rewrite Rabs_Ropp. lra. }
  destruct (fsub x y Fx Fy) as [F E].
  { apply Rle_trans with (1 := B). apply bpow_le. lia. }
  split; [split; [exact F|]|exact E]. rewrite E. apply rnd_bpow; [lia|exact B].
Qed.
Lemma mulB e e' x y : (-1074 <= e + e' <= 1020)%Z -> upto e x -> upto e' y -> upto (e + e') (nmul x y) /\ V (nmul x y) = rnd (V x * V y).
Proof.
  intros He [Fx Bx] [Fy By].
  assert (B : Rabs (V x * V y) <= bpow radix2 (e + e')).
  { rewrite bpow_plus, Rabs_mult. apply Rmult_le_compat; auto using Rabs_pos. }
  destruct (fmul x y Fx Fy) as [F E].
  { apply Rle_trans with (1 := B). apply bpow_le. lia. }
  split; [split; [exact F|]|exact E]. rewrite E. apply rnd_bpow; [lia|exact B].
Qed.
Lemma two_fin : isfin two. Proof. split; reflexivity. Qed.
Lemma two_V : V two = 2. Proof. unfold V, two. cbn. unfold Defs.F2R. cbn. lra. Qed.
Lemma halfB e x : (0 <= e <= 1020)%Z -> upto e x -> upto e (ndiv x two) /\ V (ndiv x two) = rnd (V x / 2).
Proof.
  intros He [Fx Bx].
  assert (B : Rabs (V x / 2) <= bpow radix2 e).
  { apply Rabs_le_inv in Bx. pose proof (bpow_gt_0 radix2 e). apply Rabs_le. lra. }
  rewrite <- two_V. destruct (fdiv x two Fx two_fin) as [F E]; rewrite ?two_V in *.
  - lra.
  - apply Rle_trans with (1 := B). apply bpow_le. lia.
  - split; [split; [exact F|]|exact E]. rewrite E. apply rnd_bpow; [lia|exact B].
Qed.
Lemma upto_le e e' x : (e <= e')%Z -> upto e x -> upto e' x.
Proof. intros L [F B]. split; [exact F|]. apply Rle_trans with (1 := B). now apply bpow_le. Qed.
Lemma absB e x : upto e x -> upto e (nabs x).
Proof. intros [F B]. split; [now apply fin_abs'|]. rewrite V_abs by exact F. now rewrite Rabs_Rabsolu. Qed.
Lemma oppB e x : upto e x -> upto e (nopp x).
Proof. intros [F B]. destruct (opp_ok x F) as [F' E]. split; [exact F'|]. rewrite E. now rewrite Rabs_Ropp. Qed.
Lemma twoB : upto 1 two.
Proof. split; [exact two_fin|]. rewrite two_V. change (bpow radix2 1) with 2. rewrite Rabs_pos_eq; lra. Qed.
Lemma between_upto e a x b : upto e a -> upto e b -> isfin x -> V a <= V x <= V b -> upto e x.
Proof. intros [_ A] [_ B] F H. split; [exact F|]. apply Rabs_le_inv in A, B. apply Rabs_le. lra. Qed.

Lemma rgeb_V x y : isfin x -> isfin y -> ngeb x y = true <-> V y <= V x.
Proof. intros F G. unfold ngeb. rewrite fleb by auto. apply rleb_true. Qed.

(** multiplication by a power of two is exact *)
Lemma rnd_scale x e : isfin x -> (0 <= e)%Z -> rnd (V x * bpow radix2 e) = V x * bpow radix2 e.
Proof.
  intros F He. apply round_generic; [apply valid_rnd_N|]. apply mult_bpow_pos_exact_FLT; [|exact He]. now apply V_format.
Qed.

Lemma four_fin : isfin (nofZ 4). Proof. split; reflexivity. Qed.
Lemma four_V : V (nofZ 4) = 4. Proof. unfold V. cbn. unfold Defs.F2R. cbn. lra. Qed.
Lemma golden_fin : isfin golden. Proof. split; vm_compute; reflexivity. Qed.
Lemma golden_upto : upto 0 golden /\ 38 / 100 <= V golden <= 39 / 100.
Proof.
  assert (E : exists m e, golden = S754_finite false m e /\ m = 6880887741072796%positive /\ e = (-54)%Z)
    by (eexists; eexists; split; [vm_compute; reflexivity|split; reflexivity]).
  destruct E as (m & e & E & -> & ->).
  assert (B : 38 / 100 <= V golden <= 39 / 100).
  { rewrite E. unfold V, SF2R, Defs.F2R. cbn. lra. }
  split; [|exact B]. split; [exact golden_fin|]. change (bpow radix2 0) with 1. rewrite Rabs_pos_eq; lra.
Qed.

Section Brent.
Variables (f : spec_float -> spec_float) (lo hi tol : spec_float).
Hypothesis Blo : upto 200 lo.
Hypothesis Bhi : upto 200 hi.
Hypothesis Order : V lo <= V hi.
Hypothesis Btol : upto 100 tol.
Hypothesis Ltol : bpow radix2 (-40) <= V tol.
Hypothesis Bf : forall x, isfin x -> V lo <= V x <= V hi -> upto 400 (f x).

Definition inside (x : spec_float) : Prop := isfin x /\ V lo <= V x <= V hi.
Lemma in_upto x : inside x -> upto 200 x.
Proof. intros [F B]. now apply (between_upto 200 lo x hi). Qed.

Definition fbox (s : @br_state spec_float) : Prop :=
  inside (br_min s) /\ inside (br_max s) /\ inside (br_x s) /\ inside (br_w s) /\ inside (br_v s) /\
  V (br_min s) <= V (br_x s) <= V (br_max s) /\
  upto 400 (br_fx s) /\ upto 400 (br_fw s) /\ upto 400 (br_fv s) /\
  upto 303 (br_delta s) /\ upto 303 (br_delta2 s).

Lemma tol_num : / 1099511627776 <= V tol.
Proof. apply Rle_trans with (2 := Ltol). apply Req_le. cbn. lra. Qed.

Lemma fract1_ok s : fbox s -> upto 302 (br_fract1 tol s) /\
  Rabs (V (br_x s)) / 2199023255552 + / 17592186044416 <= V (br_fract1 tol s).
Proof.
  intros (_ & _ & Ix & _). pose proof (in_upto _ Ix) as Bx. destruct Ix as [Fx _].
  destruct (mulB 100 200 tol (nabs (br_x s)) ltac:(lia) Btol (absB _ _ Bx)) as [B1 E1].
  assert (Q : upto 100 (ndiv tol (nofZ 4)) /\ V (ndiv tol (nofZ 4)) = rnd (V tol / 4)).
  { destruct Btol as [Ft Ht].
    assert (B : Rabs (V tol / 4) <= bpow radix2 100).
    { apply Rabs_le_inv in Ht. pose proof (bpow_gt_0 radix2 100). apply Rabs_le. lra. }
    rewrite <- four_V. destruct (fdiv tol (nofZ 4) Ft four_fin) as [F E]; rewrite ?four_V in *.
    - lra.
    - apply Rle_trans with (1 := B). apply bpow_le. lia.
    - split; [split; [exact F|]|exact E]. rewrite E. apply rnd_bpow; [lia|exact B]. }
  destruct Q as [B2 E2].
  destruct (addB 300 _ _ ltac:(lia) B1 (upto_le 100 300 _ ltac:(lia) B2)) as [B3 E3].
  split; [apply (upto_le 301); [lia|exact B3]|].
  unfold br_fract1. rewrite E3, E1, E2, V_abs by exact Fx.
  pose proof tol_num as T. pose proof (Rabs_pos (V (br_x s))) as X0.
  pose proof (rnd_lin (V tol * Rabs (V (br_x s)))) as R1. pose proof (rnd_lin (V tol / 4)) as R2.
  assert (P : Rabs (V (br_x s)) / 1099511627776 <= V tol * Rabs (V (br_x s))).
  { unfold Rdiv. rewrite Rmult_comm. now apply Rmult_le_compat_r. }
  set (p := V tol * Rabs (V (br_x s))) in *. rewrite (Rabs_pos_eq p) in R1 by lra.
  rewrite (Rabs_pos_eq (V tol / 4)) in R2 by lra.
  set (a := rnd p) in *. set (b := rnd (V tol / 4)) in *.
  pose proof (rnd_lin (a + b)) as R3. rewrite (Rabs_pos_eq (a + b)) in R3 by lra. lra.
Qed.

Lemma fract2_ok s : fbox s -> upto 303 (br_fract2 tol s) /\ V (br_fract2 tol s) = 2 * V (br_fract1 tol s).
Proof.
  intros H. destruct (fract1_ok s H) as [B _].
  destruct (mulB 1 302 two _ ltac:(lia) twoB B) as [B' E]. split; [exact B'|].
  unfold br_fract2. rewrite E, two_V. pose proof (rnd_scale _ 1 (proj1 B) ltac:(lia)) as S.
  change (bpow radix2 1) with 2 in S. rewrite Rmult_comm, S. ring.
Qed.

Lemma mid_ok s : fbox s -> upto 201 (br_mid s) /\ V (br_mid s) = rnd (rnd (V (br_min s) + V (br_max s)) / 2).
Proof.
  intros (Im & IM & _).
  destruct (addB 200 _ _ ltac:(lia) (in_upto _ Im) (in_upto _ IM)) as [B1 E1].
  destruct (halfB 201 _ ltac:(lia) B1) as [B2 E2]. split; [exact B2|]. unfold br_mid. now rewrite E2, E1.
Qed.

(** what a failed break test says *)
Lemma not_done s : fbox s -> br_done tol s = false ->
  (V (br_x s) <= V (br_mid s) -> V (br_fract1 tol s) <= V (br_max s) - V (br_x s)) /\
  (V (br_mid s) <= V (br_x s) -> V (br_fract1 tol s) <= V (br_x s) - V (br_min s)).
Proof.
  intros H D. destruct (fract1_ok s H) as [B1 L1]. destruct (fract2_ok s H) as [B2 E2]. destruct (mid_ok s H) as [Bm Em].
  destruct H as (Im & IM & Ix & _ & _ & O & _).
  destruct (subB 201 (br_x s) (br_mid s) ltac:(lia) (upto_le 200 201 _ ltac:(lia) (in_upto _ Ix)) Bm) as [B3 E3].
  destruct (subB 200 (br_max s) (br_min s) ltac:(lia) (in_upto _ IM) (in_upto _ Im)) as [B4 E4].
  destruct (halfB 201 _ ltac:(lia) B4) as [B5 E5].
  destruct (subB 303 (br_fract2 tol s) _ ltac:(lia) B2 (upto_le 201 303 _ ltac:(lia) B5)) as [B6 E6].
  unfold br_done in D. rewrite fleb in D by (try apply fin_abs'; first [apply B3|apply B6]).
  apply rleb_false in D. rewrite V_abs in D by apply B3. rewrite E3, E6, E5, E4, E2 in D.
  split; intros L.
  - apply (room_up (V (br_min s))); [exact O|exact L1|rewrite <- Em; exact L|].
    rewrite <- Em. apply rnd_lt_inv.
    replace (V (br_mid s) - V (br_x s)) with (- (V (br_x s) - V (br_mid s))) by ring. rewrite rnd_opp.
    rewrite Rabs_left1 in D; [exact D|]. rewrite <- rnd_0. apply rnd_le. lra.
  - apply (room_dn (V (br_min s)) _ (V (br_max s))); [exact O|exact L1|rewrite <- Em; exact L|].
    rewrite <- Em. apply rnd_lt_inv.
    rewrite Rabs_pos_eq in D; [exact D|]. rewrite <- rnd_0. apply rnd_le. lra.
Qed.

(** the four ways to choose the next point *)
Lemma step_up s a : fbox s -> upto 303 a -> 0 <= V a <= V (br_max s) - V (br_x s) ->
  inside (nadd (br_x s) a) /\ V (br_x s) <= V (nadd (br_x s) a) <= V (br_max s).
Proof.
  intros (Im & IM & Ix & _ & _ & O & _) Ba Ha.
  destruct (addB 303 (br_x s) a ltac:(lia) (upto_le 200 303 _ ltac:(lia) (in_upto _ Ix)) Ba) as [B E].
  assert (V (br_x s) <= V (nadd (br_x s) a) <= V (br_max s)).
  { rewrite E. split; [apply rnd_ge; [apply Ix|lra]|apply rnd_le_V; [apply IM|lra]]. }
  split; [split; [apply B|]|assumption]. destruct Ix as [_ Ix], IM as [_ IM]. lra.
Qed.
Lemma step_dn s a : fbox s -> upto 303 a -> 0 <= - V a <= V (br_x s) - V (br_min s) ->
  inside (nadd (br_x s) a) /\ V (br_min s) <= V (nadd (br_x s) a) <= V (br_x s).
Proof.
  intros (Im & IM & Ix & _ & _ & O & _) Ba Ha.
  destruct (addB 303 (br_x s) a ltac:(lia) (upto_le 200 303 _ ltac:(lia) (in_upto _ Ix)) Ba) as [B E].
  assert (V (br_min s) <= V (nadd (br_x s) a) <= V (br_x s)).
  { rewrite E. split; [apply rnd_ge; [apply Im|lra]|apply rnd_le_V; [apply Ix|lra]]. }
  split; [split; [apply B|]|assumption]. destruct Ix as [_ Ix], Im as [_ Im]. lra.
Qed.
Lemma step_sub s a : fbox s -> upto 303 a -> 0 <= V a <= V (br_x s) - V (br_min s) ->
  inside (nsub (br_x s) a) /\ V (br_min s) <= V (nsub (br_x s) a) <= V (br_x s).
Proof.
  intros (Im & IM & Ix & _ & _ & O & _) Ba Ha.
  destruct (subB 303 (br_x s) a ltac:(lia) (upto_le 200 303 _ ltac:(lia) (in_upto _ Ix)) Ba) as [B E].
  assert (V (br_min s) <= V (nsub (br_x s) a) <= V (br_x s)).
  { rewrite E. split; [apply rnd_ge; [apply Im|lra]|apply rnd_le_V; [apply Ix|lra]]. }
  split; [split; [apply B|]|assumption]. destruct Ix as [_ Ix], Im as [_ Im]. lra.
Qed.

(** the point that br_u takes for a given delta *)
Definition pick (s : @br_state spec_float) (delta : spec_float) : spec_float :=
  let fract1 := br_fract1 tol s in
  if ngeb (nabs delta) fract1 then nadd (br_x s) delta
  else if ngtb delta nzero then nadd (br_x s) (nabs fract1) else nsub (br_x s) (nabs fract1).
Definition within_s (s : @br_state spec_float) (u : spec_float) : Prop :=
  inside u /\ V (br_min s) <= V u <= V (br_max s).

Lemma ngtb0 x : isfin x -> ngtb x nzero = true <-> 0 < V x.
Proof. intros F. unfold ngtb. rewrite fltb by (auto using zero_fin). rewrite zero_V. apply rltb_true. Qed.
Lemma ngtb0f x : isfin x -> ngtb x nzero = false <-> V x <= 0.
Proof. intros F. unfold ngtb. rewrite fltb by (auto using zero_fin). rewrite zero_V. apply rltb_false. Qed.

Lemma fr1_pos s : fbox s -> / 17592186044416 <= V (br_fract1 tol s) /\ V (nabs (br_fract1 tol s)) = V (br_fract1 tol s) /\
  upto 303 (nabs (br_fract1 tol s)).
Proof.
  intros H. destruct (fract1_ok s H) as [B L]. pose proof (Rabs_pos (V (br_x s))). split; [lra|]. split.
  - rewrite V_abs by apply B. rewrite Rabs_pos_eq; lra.
  - apply absB. apply (upto_le 302); [lia|exact B].
Qed.

Lemma golden_pick s : fbox s -> br_done tol s = false ->
  within_s s (pick s (fst (br_golden s))) /\ upto 303 (fst (br_golden s)) /\ upto 303 (snd (br_golden s)).
Proof.
  intros H D. destruct (not_done s H D) as [Up Dn]. destruct (fr1_pos s H) as (L1 & A1 & B1).
  destruct (mid_ok s H) as [Bm _]. destruct golden_upto as [Bg Hg].
  pose proof H as (Im & IM & Ix & _ & _ & O & _).
  destruct (subB 200 _ _ ltac:(lia) (in_upto _ Im) (in_upto _ Ix)) as [B3 E3].
  destruct (subB 200 _ _ ltac:(lia) (in_upto _ IM) (in_upto _ Ix)) as [B4 E4].
  unfold br_golden. cbn [fst snd].
  destruct (ngeb (br_x s) (br_mid s)) eqn:E.
  - apply rgeb_V in E; [|apply Ix|apply Bm]. specialize (Dn E).
    destruct (mulB 0 201 golden _ ltac:(lia) Bg B3) as [B5 E5].
    split; [|split; [apply (upto_le 201); [lia|exact B5]|apply (upto_le 201); [lia|exact B3]]].
    pose proof (rnd_lin (V (br_min s) - V (br_x s))) as R1. rewrite <- E3 in R1.
    pose proof (rnd_lin (V golden * V (nsub (br_min s) (br_x s)))) as R2. rewrite <- E5 in R2.
    assert (N : V (nsub (br_min s) (br_x s)) <= 0) by (rewrite E3, <- rnd_0; apply rnd_le; lra).
    rewrite (Rabs_left1 (V (br_min s) - V (br_x s))) in R1 by lra.
    set (a := V (nsub (br_min s) (br_x s))) in *.
    assert (P : 39 / 100 * a <= V golden * a <= 0) by (split; nra).
    rewrite (Rabs_left1 (V golden * a)) in R2 by lra.
    assert (ND : V (nmul golden (nsub (br_min s) (br_x s))) <= 0) by (rewrite E5, <- rnd_0; apply rnd_le; lra).
    set (d := nmul golden (nsub (br_min s) (br_x s))) in *.
    unfold pick. destruct (ngeb (nabs d) _) eqn:G.
    + destruct (step_dn s d H (upto_le 201 303 _ ltac:(lia) B5) ltac:(lra)) as [I J]. split; [exact I|lra].
    + destruct (ngtb d nzero) eqn:G2; [apply ngtb0 in G2; [lra|apply B5]|].
      destruct (step_sub s _ H B1 ltac:(lra)) as [I J]. split; [exact I|lra].
  - assert (E' : V (br_x s) < V (br_mid s)).
    { apply Rnot_le_lt. intros K. apply rgeb_V in K; [congruence|apply Ix|apply Bm]. }
    specialize (Up ltac:(lra)).
    destruct (mulB 0 201 golden _ ltac:(lia) Bg B4) as [B5 E5].
    split; [|split; [apply (upto_le 201); [lia|exact B5]|apply (upto_le 201); [lia|exact B4]]].
    pose proof (rnd_lin (V (br_max s) - V (br_x s))) as R1. rewrite <- E4 in R1.
    pose proof (rnd_lin (V golden * V (nsub (br_max s) (br_x s)))) as R2. rewrite <- E5 in R2.
    assert (N : 0 <= V (nsub (br_max s) (br_x s))) by (rewrite E4, <- rnd_0; apply rnd_le; lra).
    rewrite (Rabs_pos_eq (V (br_max s) - V (br_x s))) in R1 by lra.
    set (a := V (nsub (br_max s) (br_x s))) in *.
    assert (P : 38 / 100 * a <= V golden * a <= 39 / 100 * a) by (split; nra).
    rewrite (Rabs_pos_eq (V golden * a)) in R2 by lra.
    set (d := nmul golden (nsub (br_max s) (br_x s))) in *.
    unfold pick. destruct (ngeb (nabs d) _) eqn:G.
    + destruct (step_up s d H (upto_le 201 303 _ ltac:(lia) B5) ltac:(lra)) as [I J]. split; [exact I|lra].
    + destruct (ngtb d nzero) eqn:G2; [|apply ngtb0f in G2; [lra|apply B5]].
      destruct (step_up s _ H B1 ltac:(lra)) as [I J]. split; [exact I|lra].
Qed.

Lemma leb_false x y : isfin x -> isfin y -> nleb x y = false -> V y < V x.
Proof. intros F G H. rewrite fleb in H by auto. now apply rleb_false in H. Qed.
Lemma ltb_true x y : isfin x -> isfin y -> nltb x y = true -> V x < V y.
Proof. intros F G H. rewrite fltb in H by auto. now apply rltb_true in H. Qed.
Lemma ltb_false x y : isfin x -> isfin y -> nltb x y = false -> V y <= V x.
Proof. intros F G H. rewrite fltb in H by auto. now apply rltb_false in H. Qed.
Lemma leb_true x y : isfin x -> isfin y -> nleb x y = true -> V x <= V y.
Proof. intros F G H. rewrite fleb in H by auto. now apply rleb_true in H. Qed.

(** the parabolic step: a quotient of finite numbers between the ends *)
Lemma quotient_ok s p q : fbox s -> upto 804 p -> upto 604 q -> 0 < V q ->
  V (nmul q (nsub (br_min s) (br_x s))) < V p -> V p < V (nmul q (nsub (br_max s) (br_x s))) ->
  upto 201 (ndiv p q).
Proof.
  intros H Bp Bq Q P1 P2. pose proof H as (Im & IM & Ix & _ & _ & O & _).
  destruct (subB 200 _ _ ltac:(lia) (in_upto _ Im) (in_upto _ Ix)) as [B3 E3].
  destruct (subB 200 _ _ ltac:(lia) (in_upto _ IM) (in_upto _ Ix)) as [B4 E4].
  destruct (mulB 604 201 q _ ltac:(lia) Bq B3) as [B5 E5]. destruct (mulB 604 201 q _ ltac:(lia) Bq B4) as [B6 E6].
  pose proof (rnd_scale q (200 + 1) (proj1 Bq) ltac:(lia)) as SC.
  destruct B3 as [F3 B3], B4 as [F4 B4].
  set (big := bpow radix2 (200 + 1)) in *. assert (0 < big) by apply bpow_gt_0.
  assert (L1 : - (V q * big) <= V p).
  { apply Rlt_le, Rle_lt_trans with (2 := P1). rewrite E5.
    rewrite <- SC, <- rnd_opp. apply rnd_le.
    apply Rabs_le_inv in B3. nra. }
  assert (L2 : V p <= V q * big).
  { apply Rlt_le, Rlt_le_trans with (1 := P2). rewrite E6.
    rewrite <- SC. apply rnd_le.
    apply Rabs_le_inv in B4. nra. }
  assert (B : Rabs (V p / V q) <= bpow radix2 201).
  { change (bpow radix2 201) with big. apply Rabs_le. assert (Eq : V p / V q * V q = V p) by (field; lra).
    split; apply (Rmult_le_reg_r (V q)); try exact Q; rewrite Eq; lra. }
  destruct (fdiv p q (proj1 Bp) (proj1 Bq) ltac:(lra)) as [F E].
  { apply Rle_trans with (1 := B). apply bpow_le. lia. }
  split; [exact F|]. rewrite E. apply rnd_bpow; [lia|exact B].
Qed.

Lemma pick_fr1 s d : isfin d -> fbox s -> Rabs (V d) = V (br_fract1 tol s) -> pick s d = nadd (br_x s) d.
Proof.
  intros F H E. unfold pick.
  destruct (fract1_ok s H) as [B _]. destruct (ngeb (nabs d) _) eqn:G; [reflexivity|].
  exfalso. unfold ngeb in G. apply leb_false in G; [|apply B|now apply fin_abs']. rewrite V_abs in G by exact F. lra.
Qed.

Lemma delta_ok s : fbox s -> br_done tol s = false ->
  within_s s (br_u tol s) /\ upto 303 (fst (br_delta_new tol s)) /\ upto 303 (snd (br_delta_new tol s)).
Proof.
  intros H D. pose proof (golden_pick s H D) as G. destruct (not_done s H D) as [Up Dn].
  destruct (fr1_pos s H) as (L1 & A1 & B1). destruct (fract1_ok s H) as [Bf1 _]. destruct (fract2_ok s H) as [Bf2 Ef2].
  destruct (mid_ok s H) as [Bm _].
  change (br_u tol s) with (pick s (fst (br_delta_new tol s))).
  pose proof H as (Im & IM & Ix & Iw & Iv & O & Hfx & Hfw & Hfv & Hd & Hd2).
  destruct (subB 200 _ _ ltac:(lia) (in_upto _ Im) (in_upto _ Ix)) as [B3 E3].
  destruct (subB 200 _ _ ltac:(lia) (in_upto _ IM) (in_upto _ Ix)) as [B4 E4].
  unfold br_delta_new. destruct (ngtb (nabs (br_delta2 s)) _); [|exact G].
  cbv zeta.
  destruct (subB 200 _ _ ltac:(lia) (in_upto _ Ix) (in_upto _ Iw)) as [Bxw _].
  destruct (subB 200 _ _ ltac:(lia) (in_upto _ Ix) (in_upto _ Iv)) as [Bxv _].
  destruct (subB 400 _ _ ltac:(lia) Hfx Hfv) as [Bfv _]. destruct (subB 400 _ _ ltac:(lia) Hfx Hfw) as [Bfw _].
  destruct (mulB 201 401 _ _ ltac:(lia) Bxw Bfv) as [Br _]. destruct (mulB 201 401 _ _ ltac:(lia) Bxv Bfw) as [Bq _].
  destruct (mulB 201 602 _ _ ltac:(lia) Bxv Bq) as [Bp1 _]. destruct (mulB 201 602 _ _ ltac:(lia) Bxw Br) as [Bp2 _].
  destruct (subB 803 _ _ ltac:(lia) Bp1 Bp2) as [Bp _]. destruct (subB 602 _ _ ltac:(lia) Bq Br) as [Bqr _].
  destruct (mulB 1 603 _ _ ltac:(lia) twoB Bqr) as [Bq2 _].
  set (q0 := nmul two (nsub _ _)) in *. set (p0 := nsub (nmul _ _) (nmul _ _)) in *.
  set (p := if ngtb q0 nzero then nopp p0 else p0). set (q := nabs q0).
  assert (Bp' : upto 804 p) by (unfold p; destruct (ngtb q0 nzero); [now apply oppB|exact Bp]).
  assert (Bq' : upto 604 q) by (now apply absB).
  assert (Q0 : 0 <= V q) by (unfold q; rewrite V_abs by apply Bq2; apply Rabs_pos).
  clearbody q p. clear Bxw Bxv Bfv Bfw Br Bq Bp1 Bp2 Bp Bqr Bq2.
  destruct (mulB 604 303 q (br_delta2 s) ltac:(lia) Bq' Hd2) as [Bt Et].
  destruct (halfB 907 _ ltac:(lia) Bt) as [Bth Eth].
  destruct (mulB 604 201 q _ ltac:(lia) Bq' B3) as [B5 E5]. destruct (mulB 604 201 q _ ltac:(lia) Bq' B4) as [B6 E6].
  destruct (ngeb (nabs p) (nabs (ndiv (nmul q (br_delta2 s)) two))) eqn:T1; [exact G|].
  destruct (nleb p (nmul q (nsub (br_min s) (br_x s)))) eqn:T2; [exact G|].
  destruct (ngeb p (nmul q (nsub (br_max s) (br_x s)))) eqn:T3; [exact G|].
  cbn [orb fst snd]. clear G.
  unfold ngeb in T1, T3. apply leb_false in T1; [|apply fin_abs'; apply Bth|apply fin_abs'; apply Bp'].
  apply leb_false in T2; [|apply Bp'|apply B5]. apply leb_false in T3; [|apply B6|apply Bp'].
  assert (Qp : 0 < V q).
  { destruct (Rle_lt_or_eq_dec 0 (V q) Q0) as [K|K]; [exact K|]. exfalso.
    rewrite !V_abs in T1 by (first [apply Bth|apply Bp']). rewrite Eth, Et, <- K, Rmult_0_l, rnd_0 in T1.
    replace (0 / 2) with 0 in T1 by field. rewrite rnd_0, Rabs_R0 in T1. pose proof (Rabs_pos (V p)). lra. }
  pose proof (quotient_ok s p q H Bp' Bq' Qp T2 T3) as Bd.
  set (d := ndiv p q) in *. clearbody d.
  destruct (addB 201 (br_x s) d ltac:(lia) (upto_le 200 201 _ ltac:(lia) (in_upto _ Ix)) Bd) as [Bu Eu].
  set (u := nadd (br_x s) d) in *.
  destruct (subB 202 u (br_min s) ltac:(lia) Bu (upto_le 200 202 _ ltac:(lia) (in_upto _ Im))) as [Bum Eum].
  destruct (subB 202 (br_max s) u ltac:(lia) (upto_le 200 202 _ ltac:(lia) (in_upto _ IM)) Bu) as [BMu EMu].
  destruct (subB 201 (br_mid s) (br_x s) ltac:(lia) Bm (upto_le 200 201 _ ltac:(lia) (in_upto _ Ix))) as [Bmx Emx].
  split; [|split; [|exact Hd]].
  2: { destruct (_ || _); [destruct (nltb _ _); [apply oppB|]; exact B1|]. apply (upto_le 201); [lia|exact Bd]. }
  destruct (nltb (nsub u (br_min s)) (br_fract2 tol s)) eqn:C1; [|destruct (nltb (nsub (br_max s) u) (br_fract2 tol s)) eqn:C2];
    cbn [orb].
  3: { apply ltb_false in C1; [|apply Bum|apply Bf2]. apply ltb_false in C2; [|apply BMu|apply Bf2].
       rewrite Ef2, Eum in C1. rewrite Ef2, EMu in C2.
       assert (K1 : V (br_fract1 tol s) <= V u - V (br_min s)).
       { apply Rnot_lt_le. intros K. apply Rlt_le, (rnd_le_V _ (br_fract1 tol s) (proj1 Bf1)) in K. lra. }
       assert (K2 : V (br_fract1 tol s) <= V (br_max s) - V u).
       { apply Rnot_lt_le. intros K. apply Rlt_le, (rnd_le_V _ (br_fract1 tol s) (proj1 Bf1)) in K. lra. }
       unfold pick. destruct (ngeb (nabs d) _) eqn:C3.
       - fold u. split; [|lra]. split; [apply Bu|]. destruct Im as [_ Im], IM as [_ IM]. lra.
       - destruct (ngtb d nzero) eqn:C4; [apply ngtb0 in C4; [|apply Bd]|apply ngtb0f in C4; [|apply Bd]].
         + assert (V (br_x s) <= V u) by (rewrite Eu; apply rnd_ge; [apply Ix|lra]).
           destruct (step_up s _ H B1 ltac:(lra)) as [I J]. split; [exact I|lra].
         + assert (V u <= V (br_x s)) by (rewrite Eu; apply rnd_le_V; [apply Ix|lra]).
           destruct (step_sub s _ H B1 ltac:(lra)) as [I J]. split; [exact I|lra]. }
  all: destruct (nltb (nsub (br_mid s) (br_x s)) nzero) eqn:C3.
  all: try (apply ltb_true in C3; [|apply Bmx|apply zero_fin]); try (apply ltb_false in C3; [|apply Bmx|apply zero_fin]).
  all: rewrite zero_V, Emx in C3.
  1,3: assert (K : V (br_mid s) <= V (br_x s))
         by (apply Rnot_lt_le; intros K; assert (rnd 0 <= rnd (V (br_mid s) - V (br_x s))) by (apply rnd_le; lra); rewrite rnd_0 in *; lra);
       specialize (Dn K); destruct (opp_ok _ (proj1 B1)) as [Fo Eo];
       rewrite pick_fr1; [|exact Fo|exact H|rewrite Eo, A1, Rabs_Ropp, Rabs_pos_eq; lra];
       destruct (step_dn s _ H (oppB _ _ B1) ltac:(rewrite Eo, A1; lra)) as [I J]; split; [exact I|lra].
  all: assert (K : V (br_x s) <= V (br_mid s))
         by (apply Rnot_lt_le; intros K; pose proof (rnd_sub_neq (br_mid s) (br_x s) (proj1 Bm) (proj1 Ix) ltac:(lra));
             assert (rnd (V (br_mid s) - V (br_x s)) <= rnd 0) by (apply rnd_le; lra); rewrite rnd_0 in *; lra);
       specialize (Up K);
       rewrite pick_fr1; [|apply B1|exact H|rewrite A1, Rabs_pos_eq; lra];
       destruct (step_up s _ H B1 ltac:(rewrite A1; lra)) as [I J]; split; [exact I|lra].
Qed.

(** ** The run *)
Definition finv (s : @br_state spec_float) : Prop :=
  fbox s /\ br_fx s = f (br_x s) /\ In (br_x s) (br_evals s) /\ In hi (br_evals s) /\
  forall e, In e (br_evals s) -> inside e /\ V (f (br_x s)) <= V (f e).

Lemma step_finv s : finv s -> br_done tol s = false -> finv (br_step f tol s).
Proof.
  intros (H & H4 & H5 & H5' & H6) Hd. pose proof (delta_ok s H Hd) as ((Iu & Hu) & Bd & Bd2).
  pose proof H as (Im & IM & Ix & Iw & Iv & O & Hfx & Hfw & Hfv & _ & _).
  unfold br_step. destruct (br_delta_new tol s) as [dl dl2]. cbn [fst snd] in Bd, Bd2.
  set (u := br_u tol s) in *.
  assert (Hev : forall y, In y (br_evals s) -> In y (br_evals s ++ [u])) by (intros; apply in_or_app; left; assumption).
  assert (Huin : In u (br_evals s ++ [u])) by (apply in_or_app; right; left; reflexivity).
  pose proof (Bf u (proj1 Iu) (proj2 Iu)) as Bfu.
  destruct (nleb (f u) (br_fx s)) eqn:E; [apply leb_true in E|apply leb_false in E]; try apply Bfu; try apply Hfx.
  - assert (Hall : forall e, In e (br_evals s ++ [u]) -> inside e /\ V (f u) <= V (f e)).
    { intros e He. apply in_app_or in He. destruct He as [He|[<-|[]]]; [|split; [exact Iu|lra]].
      destruct (H6 e He). split; [assumption|]. rewrite H4 in E. lra. }
    destruct (ngeb u (br_x s)) eqn:E2;
      [apply rgeb_V in E2; [|apply Iu|apply Ix]|unfold ngeb in E2; apply leb_false in E2; [|apply Ix|apply Iu]];
      (split; [|cbn; split; [reflexivity|split; [exact Huin|split; [now apply Hev|exact Hall]]]]);
      unfold fbox; cbn; (do 5 (split; [assumption|])); (split; [lra|]); auto 6.
  - assert (Hall : forall e, In e (br_evals s ++ [u]) -> inside e /\ V (f (br_x s)) <= V (f e)).
    { intros e He. apply in_app_or in He. destruct He as [He|[<-|[]]]; [apply H6, He|split; [exact Iu|]]. rewrite H4 in E. lra. }
    destruct (nltb u (br_x s)) eqn:E2;
      [apply ltb_true in E2; [|apply Iu|apply Ix]|apply ltb_false in E2; [|apply Iu|apply Ix]];
      (destruct (_ || _); [|destruct (_ || _)]);
      (split; [|cbn; split; [exact H4|split; [now apply Hev|split; [now apply Hev|exact Hall]]]]);
      unfold fbox; cbn; (do 5 (split; [assumption|])); (split; [lra|]); auto 6.
Qed.

Lemma loop_finv : forall fuel count s s', finv s -> br_loop f fuel tol count s = Some s' -> finv s'.
Proof.
  induction fuel as [|fuel IH]; intros count s s' Hs E; [discriminate|].
  cbn [br_loop] in E. destruct (br_done tol s) eqn:Ed; [injection E as <-; exact Hs|].
  pose proof (step_finv s Hs Ed) as Hs'.
  destruct (Z.eqb (dec32 count) 0); [injection E as <-; exact Hs'|]. eapply IH; eassumption.
Qed.

Theorem brent_b64 fuel maxiters r evals : minimizeBrent f fuel lo hi tol maxiters = Some (r, evals) ->
  In r evals /\ In hi evals /\ forall e, In e evals -> isfin e /\ V lo <= V e <= V hi /\ V (f r) <= V (f e).
Proof.
  unfold minimizeBrent. destruct (br_loop f fuel tol maxiters (br_init f lo hi)) as [s|] eqn:E; [|discriminate].
  intros Hr. injection Hr as <- <-.
  assert (Il : inside lo) by (split; [apply Blo|lra]). assert (Ih : inside hi) by (split; [apply Bhi|lra]).
  assert (B : upto 400 (f hi)) by (apply Bf; apply Ih).
  assert (Z : upto 303 nzero) by (split; [apply zero_fin|rewrite zero_V, Rabs_R0; apply bpow_ge_0]).
  destruct (loop_finv fuel maxiters (br_init f lo hi) s) as (H & H4 & H5 & H6 & H7); [|exact E|].
  - split; [|cbn; split; [reflexivity|split; [auto|split; [auto|intros e [<-|[]]; split; [exact Ih|lra]]]]].
    unfold fbox; cbn [br_init br_min br_max br_x br_w br_v br_fx br_fw br_fv br_delta br_delta2].
    do 5 (split; [assumption|]). split; [lra|]. auto 6.
  - split; [exact H5|]. split; [exact H6|]. intros e He. destruct (H7 e He) as [[F I] L]. auto.
Qed.
End Brent.

(** ** Golden section *)
Lemma p13 : 10 ^ 13 = 10000000000000. Proof. simpl. lra. Qed.
Lemma p14 : 10 ^ 14 = 100000000000000. Proof. simpl. lra. Qed.
Lemma p16 : 10 ^ 16 = 10000000000000000. Proof. simpl. lra. Qed.
Lemma p17 : 10 ^ 17 = 100000000000000000. Proof. simpl. lra. Qed.
Ltac pw := repeat match goal with
  | H : context [10 ^ 13] |- _ => rewrite p13 in H
  | H : context [10 ^ 14] |- _ => rewrite p14 in H
  | H : context [10 ^ 16] |- _ => rewrite p16 in H
  | H : context [10 ^ 17] |- _ => rewrite p17 in H
  end; rewrite ?p13, ?p14, ?p16, ?p17.
Lemma phi_upto : upto 0 phi /\ - ee <= V phi - ph <= ee.
Proof.
  assert (E : exists m e, phi = S754_finite false m e /\ m = 5566755282873603%positive /\ e = (-53)%Z)
    by (eexists; eexists; split; [vm_compute; reflexivity|split; reflexivity]).
  destruct E as (m & e & E & -> & ->).
  assert (B : V phi = 5566755282873603 / 9007199254740992).
  { rewrite E. unfold V, SF2R, Defs.F2R. cbn. lra. }
  assert (D : - ee <= V phi - ph <= ee) by (rewrite B; unfold ph; lra).
  split; [|exact D]. split; [split; vm_compute; reflexivity|].
  change (bpow radix2 0) with 1. rewrite Rabs_pos_eq; rewrite B; lra.
Qed.

(** the real numbers that a state stands for *)
Definition RS (s : @gs_state spec_float) : @gs_state R :=
  {| gs_a := V (gs_a s); gs_b := V (gs_b s); gs_c := V (gs_c s); gs_d := V (gs_d s);
     gs_fc := 0; gs_fd := 0; gs_evals := [] |}.
Definition unit01 (x : spec_float) : Prop := isfin x /\ 0 <= V x <= 1.
Definition before1 (x : spec_float) : Prop := isfin x /\ 0 <= V x <= 1 - 4 / 10 ^ 13.
Definition mu : R := 45 / 10 ^ 17.

Definition fdrift (k : nat) (s : @gs_state R) : Prop :=
  gs_e s + kappa * Rabs (gs_L s) <= kappa + (INR k + 1) * (5 / 10 ^ 16) /\
  Rabs (gs_L s) <= ph ^ k + vmax / (1 - ph).

Lemma fdrift_e k s : (k <= 64)%nat -> fdrift k s -> gs_e s <= vmax.
Proof.
  intros Hk [H _]. pose proof (Rabs_pos (gs_L s)). pose proof kappa_bounds as Hkap.
  assert (INR k <= 64) by (replace 64 with (INR 64) by (simpl; lra); apply le_INR; exact Hk).
  unfold vmax. assert (0 <= kappa * Rabs (gs_L s)) by (apply Rmult_le_pos; lra). lra.
Qed.

(** one step of the real numbers, up to an error e of the new point *)
Definition near_step (s s' : @gs_state R) : Prop :=
  exists e, Rabs e <= mu /\
  ((gs_F s' = e /\ gs_E s' = - delta * gs_L s + gs_F s - ph * gs_E s /\ gs_L s' = ph * gs_L s + gs_E s) \/
   (gs_E s' = e /\ gs_F s' = delta * gs_L s + gs_E s - ph * gs_F s /\ gs_L s' = ph * gs_L s - gs_F s)).

Lemma fdrift_step k s s' : (k < 64)%nat -> fdrift k s -> near_step s s' -> fdrift (S k) s'.
Proof.
  intros Hk Hd (e & Be & St). pose proof (fdrift_e k s ltac:(lia) Hd) as He. destruct Hd as [H1 H2].
  pose proof (Rabs_pos (gs_L s)) as HL. pose proof kappa_bounds as Hkap. pose proof delta_pos as Hdel.
  pose proof (gs_e_pos s) as He0. pose proof kappa_eq as Hkeq.
  assert (Hph : 0 < ph < 1) by (unfold ph; lra).
  assert (Hmain : gs_e s' <= gs_e s + delta * Rabs (gs_L s) + mu /\
                  Rabs (gs_L s') <= ph * Rabs (gs_L s) + gs_e s).
  { unfold gs_e in *. pose proof (Rabs_pos (gs_E s)). pose proof (Rabs_pos (gs_F s)).
    destruct St as [(-> & -> & ->)|(-> & -> & ->)].
    - split.
      + replace (- delta * gs_L s + gs_F s - ph * gs_E s) with (- delta * gs_L s + gs_F s + - ph * gs_E s) by ring.
        pose proof (Rabs_tri3 (- delta * gs_L s) (gs_F s) (- ph * gs_E s)) as Ht.
        rewrite !Rabs_mult, !Rabs_Ropp, (Rabs_right delta), (Rabs_right ph) in Ht by lra.
        assert (ph * Rabs (gs_E s) <= Rabs (gs_E s)) by nra. lra.
      + eapply Rle_trans; [apply Rabs_triang|]. rewrite Rabs_mult, (Rabs_right ph) by lra. lra.
    - split.
      + replace (delta * gs_L s + gs_E s - ph * gs_F s) with (delta * gs_L s + gs_E s + - ph * gs_F s) by ring.
        pose proof (Rabs_tri3 (delta * gs_L s) (gs_E s) (- ph * gs_F s)) as Ht.
        rewrite !Rabs_mult, !Rabs_Ropp, (Rabs_right delta), (Rabs_right ph) in Ht by lra.
        assert (ph * Rabs (gs_F s) <= Rabs (gs_F s)) by nra. lra.
      + unfold Rminus. eapply Rle_trans; [apply Rabs_triang|].
        rewrite Rabs_Ropp, Rabs_mult, (Rabs_right ph) by lra. lra. }
  destruct Hmain as [M1 M2]. split.
  - rewrite S_INR. assert (kappa * gs_e s <= 1 / 10 ^ 20).
    { apply Rle_trans with (65 / 100000000000000 * vmax).
      - apply Rmult_le_compat; lra.
      - unfold vmax. simpl. lra. }
    assert (kappa * Rabs (gs_L s') <= kappa * (ph * Rabs (gs_L s) + gs_e s)) by (apply Rmult_le_compat_l; lra).
    assert (delta * Rabs (gs_L s) + kappa * (ph * Rabs (gs_L s)) = kappa * Rabs (gs_L s)).
    { rewrite <- Hkeq at 2. ring. }
    assert (mu + 1 / 10 ^ 20 <= 5 / 10 ^ 16) by (unfold mu; simpl; lra). lra.
  - simpl pow. assert (ph * (vmax / (1 - ph)) + vmax = vmax / (1 - ph)) by (unfold ph; field).
    assert (ph * Rabs (gs_L s) <= ph * (ph ^ k + vmax / (1 - ph))) by (apply Rmult_le_compat_l; lra).
    lra.
Qed.

Lemma unit_upto x : unit01 x -> upto 0 x.
Proof. intros [F B]. split; [exact F|]. change (bpow radix2 0) with 1. apply Rabs_le. lra. Qed.

(** phi times a difference of points of the unit interval *)
Lemma part_ok a b : unit01 a -> unit01 b -> V a <= V b ->
  upto 1 (nmul phi (nsub b a)) /\ 0 <= V (nmul phi (nsub b a)) /\
  - (3 / 10 ^ 16) <= V (nmul phi (nsub b a)) - ph * (V b - V a) <= 3 / 10 ^ 16.
Proof.
  intros Ha Hb L. destruct phi_upto as [Bp Ep].
  destruct (subB 0 b a ltac:(lia) (unit_upto _ Hb) (unit_upto _ Ha)) as [B1 E1].
  destruct (mulB 0 1 phi (nsub b a) ltac:(lia) Bp B1) as [B2 E2].
  assert (W0 : 0 <= V (nsub b a)) by (rewrite E1, <- rnd_0; apply rnd_le; lra).
  pose proof (rnd_lin (V b - V a)) as R1. rewrite <- E1 in R1. rewrite Rabs_pos_eq in R1 by lra.
  destruct Ha as [_ Ha], Hb as [_ Hb].
  set (w := V (nsub b a)) in *.
  assert (P : 0 <= V phi) by (unfold ph in Ep; lra).
  assert (PW : 0 <= V phi * w) by (apply Rmult_le_pos; assumption).
  pose proof (rnd_lin (V phi * w)) as R2. rewrite <- E2 in R2. rewrite Rabs_pos_eq in R2 by exact PW.
  split; [exact B2|]. split.
  - rewrite E2, <- rnd_0. apply rnd_le. exact PW.
  - set (p := V (nmul phi (nsub b a))) in *. assert (DB : 0 <= V b - V a <= 1) by lra. set (D := V b - V a) in *.
    assert (w <= 1001 / 1000) by lra.
    assert (K : - (1001 / 1000 * ee) <= (V phi - ph) * w <= 1001 / 1000 * ee) by (split; nra).
    assert (E : V phi * w = (V phi - ph) * w + ph * w) by ring.
    rewrite E in R2. set (K0 := (V phi - ph) * w) in *. clearbody K0. unfold ph in *. simpl. lra.
Qed.

Record ginv (k : nat) (s : @gs_state spec_float) : Prop := {
  gi_a : unit01 (gs_a s); gi_b : unit01 (gs_b s); gi_c : before1 (gs_c s); gi_d : before1 (gs_d s);
  gi_L : 199 / 10 ^ 14 <= V (gs_b s) - V (gs_a s);
  gi_drift : fdrift k (RS s);
  gi_evals : Forall before1 (gs_evals s) }.

Lemma before_unit x : before1 x -> unit01 x.
Proof. intros [F B]. split; [exact F|]. pw. lra. Qed.

Lemma continue_V tol s : isfin tol -> unit01 (gs_c s) -> unit01 (gs_d s) ->
  (gs_continue tol s = true -> V tol < Rabs (rnd (V (gs_c s) - V (gs_d s)))) /\
  (gs_continue tol s = false -> Rabs (rnd (V (gs_c s) - V (gs_d s))) <= V tol).
Proof.
  intros Ft Hc Hd. destruct (subB 0 _ _ ltac:(lia) (unit_upto _ Hc) (unit_upto _ Hd)) as [B E].
  rewrite <- E, <- V_abs by apply B. unfold gs_continue, ngtb.
  split; intros H; [apply ltb_true in H|apply ltb_false in H]; try exact H; try exact Ft; apply fin_abs'; apply B.
Qed.

Lemma order k s tol : (k <= 64)%nat -> isfin tol -> tol0 <= V tol -> ginv k s -> gs_continue tol s = true ->
  V (gs_a s) < V (gs_c s) /\ V (gs_c s) + 199 / 10 ^ 14 <= V (gs_d s) /\ V (gs_d s) + 12 / 10 ^ 13 <= V (gs_b s).
Proof.
  intros Hk Ft Ht I Hc. apply (continue_V tol s Ft (before_unit _ (gi_c _ _ I)) (before_unit _ (gi_d _ _ I))) in Hc.
  pose proof (fdrift_e k _ Hk (gi_drift _ _ I)) as He.
  pose proof (gi_L _ _ I) as HL. destruct (gi_c _ _ I) as [_ Bc], (gi_d _ _ I) as [_ Bd]. pose proof (gi_a _ _ I) as [_ Ba].
  pose proof (gi_b _ _ I) as [_ Bb].
  unfold gs_e, gs_E, gs_F, gs_L, RS in He. cbn [gs_a gs_b gs_c gs_d] in He.
  pose proof (rnd_lin (V (gs_c s) - V (gs_d s))) as R1.
  set (r := rnd _) in *. clearbody r.
  set (a := V (gs_a s)) in *. set (b := V (gs_b s)) in *. set (c := V (gs_c s)) in *. set (d := V (gs_d s)) in *.
  unfold ph, vmax in He. unfold tol0 in Ht. pw.
  destruct (abs_case r) as [[? E1]|[? E1]]; rewrite E1 in Hc;
  destruct (abs_case (c - d)) as [[? E2]|[? E2]]; rewrite E2 in R1;
  (match type of He with Rabs ?x + Rabs ?y <= _ =>
     destruct (abs_case x) as [[? E3]|[? E3]]; rewrite E3 in He;
     destruct (abs_case y) as [[? E4]|[? E4]]; rewrite E4 in He end); lra.
Qed.

Lemma gstep_inv g k s tol : (k < 64)%nat -> isfin tol -> tol0 <= V tol -> ginv k s -> gs_continue tol s = true ->
  ginv (S k) (gs_step g s).
Proof.
  intros Hk Ft Ht I Hc. destruct (order k s tol ltac:(lia) Ft Ht I Hc) as (O1 & O2 & O3).
  pose proof (gi_a _ _ I) as Ia. pose proof (gi_b _ _ I) as Ib. pose proof (gi_c _ _ I) as Ic. pose proof (gi_d _ _ I) as Id.
  pose proof (before_unit _ Ic) as Uc. pose proof (before_unit _ Id) as Ud.
  pose proof (gi_drift _ _ I) as Dr.
  unfold gs_step. destruct (nltb (gs_fc s) (gs_fd s)).
  - destruct (part_ok (gs_a s) (gs_d s) Ia Ud ltac:(pw; lra)) as (Bp & P0 & Ep).
    destruct (subB 1 (gs_d s) _ ltac:(lia) (upto_le 0 1 _ ltac:(lia) (unit_upto _ Ud)) Bp) as [Bc Ec].
    set (part := nmul phi (nsub (gs_d s) (gs_a s))) in *. set (c' := nsub (gs_d s) part) in *.
    pose proof (rnd_lin (V (gs_d s) - V part)) as R1. rewrite <- Ec in R1.
    assert (Hc' : 0 <= V c' <= V (gs_d s)).
    { destruct Ia as [_ Ba], Ud as [_ Bd']. rewrite Ec. split.
      - rewrite <- rnd_0. apply rnd_le. unfold ph in Ep. pw. lra.
      - apply rnd_le_V; [apply Id|lra]. }
    assert (Ic' : before1 c') by (split; [apply Bc|destruct Id as [_ Bd']; lra]).
    constructor; cbn [gs_a gs_b gs_c gs_d gs_evals].
    + exact Ia. + exact Ud. + exact Ic'. + exact Ic.
    + pw. lra.
    + apply fdrift_step with (s := RS s); [exact Hk|exact Dr|].
      exists (V c' - (V (gs_d s) - ph * (V (gs_d s) - V (gs_a s)))). split.
      * destruct Ia as [_ Ba], Ud as [_ Bd'].
        destruct (abs_case (V (gs_d s) - V part)) as [[? E2]|[? E2]]; rewrite E2 in R1;
        apply Rabs_le; unfold mu, ph in *; pw; lra.
      * left. unfold gs_E, gs_F, gs_L, RS, delta. cbn [gs_a gs_b gs_c gs_d]. repeat split; ring.
    + apply Forall_app. split; [apply (gi_evals _ _ I)|]. constructor; [exact Ic'|constructor].
  - destruct (part_ok (gs_c s) (gs_b s) Uc Ib ltac:(pw; lra)) as (Bp & P0 & Ep).
    destruct (addB 1 (gs_c s) _ ltac:(lia) (upto_le 0 1 _ ltac:(lia) (unit_upto _ Uc)) Bp) as [Bd Ed].
    set (part := nmul phi (nsub (gs_b s) (gs_c s))) in *. set (d' := nadd (gs_c s) part) in *.
    pose proof (rnd_lin (V (gs_c s) + V part)) as R1. rewrite <- Ed in R1.
    rewrite Rabs_pos_eq in R1 by (destruct Uc; lra).
    assert (Id' : before1 d').
    { split; [apply Bd|]. destruct Uc as [_ Bc'], Ib as [_ Bb']. split.
      - rewrite Ed, <- rnd_0. apply rnd_le. lra.
      - unfold ph in Ep. pw. lra. }
    constructor; cbn [gs_a gs_b gs_c gs_d gs_evals].
    + exact Uc. + exact Ib. + exact Id. + exact Id'.
    + pw. lra.
    + apply fdrift_step with (s := RS s); [exact Hk|exact Dr|].
      exists (V d' - (V (gs_c s) + ph * (V (gs_b s) - V (gs_c s)))). split.
      * destruct Uc as [_ Bc'], Ib as [_ Bb'].
        apply Rabs_le; unfold mu, ph in *; pw; lra.
      * right. unfold gs_E, gs_F, gs_L, RS, delta. cbn [gs_a gs_b gs_c gs_d]. repeat split; ring.
    + apply Forall_app. split; [apply (gi_evals _ _ I)|]. constructor; [exact Id'|constructor].
Qed.

Lemma gend s tol : isfin tol -> tol0 <= V tol -> ginv 64 s -> gs_continue tol s = false.
Proof.
  intros Ft Ht I. destruct (gs_continue tol s) eqn:C; [|reflexivity]. exfalso.
  apply (continue_V tol s Ft (before_unit _ (gi_c _ _ I)) (before_unit _ (gi_d _ _ I))) in C.
  pose proof (fdrift_e 64 _ ltac:(lia) (gi_drift _ _ I)) as He. destruct (gi_drift _ _ I) as [_ H2].
  pose proof ph_64 as H64.
  assert (Hcd : Rabs (V (gs_c s) - V (gs_d s)) <= 15 / 10 ^ 13).
  { replace (V (gs_c s) - V (gs_d s)) with ((1 - 2 * ph) * gs_L (RS s) + gs_F (RS s) + - gs_E (RS s))
      by (unfold gs_F, gs_E, gs_L, RS; cbn [gs_a gs_b gs_c gs_d]; ring).
    eapply Rle_trans; [apply Rabs_tri3|]. rewrite Rabs_Ropp, Rabs_mult.
    unfold gs_e in He. replace (Rabs (1 - 2 * ph)) with (2 * ph - 1) by (unfold ph; rewrite Rabs_left; lra).
    assert ((2 * ph - 1) * Rabs (gs_L (RS s)) <= (2 * ph - 1) * (1 / 10 ^ 13 + vmax / (1 - ph))).
    { apply Rmult_le_compat_l; [unfold ph; lra|]. lra. }
    unfold vmax, ph in *. pw. lra. }
  pose proof (rnd_lin (V (gs_c s) - V (gs_d s))) as R1. set (r := rnd _) in *. clearbody r.
  set (x := V (gs_c s) - V (gs_d s)) in *. unfold tol0 in Ht. pw.
  destruct (abs_case r) as [[? E1]|[? E1]]; rewrite E1 in C;
  destruct (abs_case x) as [[? E2]|[? E2]]; rewrite E2 in R1, Hcd; lra.
Qed.

Lemma gloop g tol : isfin tol -> tol0 <= V tol -> forall m k s fuel, (k + m = 64)%nat -> (m <= fuel)%nat -> ginv k s ->
  exists s' j, gs_loop fuel g tol s = Some s' /\ ginv j s' /\ (j <= 64)%nat /\
    (length (gs_evals s') + k = length (gs_evals s) + j)%nat.
Proof.
  intros Ft Ht. induction m as [|m IH]; intros k s fuel Hk Hf I.
  - assert (k = 64)%nat by lia. subst k. exists s, 64%nat. pose proof (gend s tol Ft Ht I) as He.
    split; [|split; [exact I|split; lia]]. destruct fuel; cbn [gs_loop]; rewrite He; reflexivity.
  - destruct fuel as [|fuel]; [lia|]. cbn [gs_loop]. destruct (gs_continue tol s) eqn:Ec.
    + destruct (IH (S k) (gs_step g s) fuel ltac:(lia) ltac:(lia) (gstep_inv g k s tol ltac:(lia) Ft Ht I Ec))
        as (s' & j & E & I' & Hj & Hlen).
      exists s', j. split; [exact E|]. split; [exact I'|]. split; [exact Hj|].
      assert (length (gs_evals (gs_step g s)) = S (length (gs_evals s))).
      { unfold gs_step. destruct (nltb _ _); simpl; rewrite app_length; simpl; lia. }
      lia.
    + exists s, k. split; [reflexivity|]. split; [exact I|]. split; lia.
Qed.

Lemma ginit g : ginv 0 (gs_init g).
Proof.
  destruct phi_upto as [Bp Ep].
  assert (T13 : 4 / 10 ^ 13 <= 1 / 1000) by (simpl; lra). assert (T14 : 199 / 10 ^ 14 <= 1 / 1000) by (simpl; lra).
  assert (T16 : 4 * ee <= 5 / 10 ^ 16) by (simpl; lra).
  assert (U1 : unit01 none1) by (split; [apply one_isfin|rewrite one_V; lra]).
  assert (U0 : unit01 nzero) by (split; [apply zero_fin|rewrite zero_V; lra]).
  assert (Up : before1 phi) by (split; [apply Bp|unfold ph in Ep; lra]).
  destruct (subB 0 none1 phi ltac:(lia) (unit_upto _ U1) Bp) as [Bc Ec].
  rewrite one_V in Ec. pose proof (rnd_lin (1 - V phi)) as R1. rewrite <- Ec in R1.
  rewrite Rabs_pos_eq in R1 by (unfold ph in Ep; lra).
  assert (Uc : before1 (nsub none1 phi)) by (split; [apply Bc|unfold ph in Ep; lra]).
  constructor; cbn [gs_init gs_a gs_b gs_c gs_d gs_evals]; auto.
  - rewrite one_V, zero_V. lra.
  - unfold fdrift, gs_e, gs_E, gs_F, gs_L, RS. cbn [gs_a gs_b gs_c gs_d gs_init]. rewrite one_V, zero_V.
    split.
    + rewrite Rminus_0_r, Rabs_R1.
      assert (A1 : Rabs (V phi - (0 + ph * 1)) <= ee) by (apply Rabs_le; lra).
      assert (A2 : Rabs (V (nsub none1 phi) - (1 - ph * 1)) <= 3 * ee) by (apply Rabs_le; unfold ph in *; lra).
      cbn [INR]. lra.
    + rewrite Rminus_0_r, Rabs_R1. unfold vmax, ph. cbn [pow]. lra.
Qed.

(** the map from the unit interval *)
Lemma map_ok a b x : moderate a -> moderate b -> V a <= V b -> before1 x ->
  isfin (gs_map a b x) /\ V a <= V (gs_map a b x) <= V b.
Proof.
  intros Ma Mb L [Fx Bx]. destruct (sub_ok b a Mb Ma) as (Fw & Ew & dd & Dd & Edd).
  assert (Bw : upto 1021 (nsub b a)).
  { split; [exact Fw|]. rewrite Ew. apply rnd_bpow; [lia|]. destruct Ma as [_ Ma], Mb as [_ Mb].
    apply Rabs_le_inv in Ma, Mb. pose proof b1020. apply Rabs_le. lra. }
  assert (W0 : 0 <= V (nsub b a)) by (rewrite Ew, <- rnd_0; apply rnd_le; lra).
  set (w := nsub b a) in *.
  assert (X1 : 0 <= V x * V w <= V w) by (pw; split; nra).
  assert (Sxw : Rabs (V x * V w) <= bpow radix2 1021).
  { rewrite Rabs_pos_eq by lra. destruct Bw as [_ Bw]. rewrite Rabs_pos_eq in Bw by lra. lra. }
  destruct (fmul x w Fx Fw) as [Fy Ey].
  { apply Rle_trans with (1 := Sxw). apply b1021_23. }
  set (y := nmul x w) in *.
  assert (Y0 : 0 <= V y) by (rewrite Ey, <- rnd_0; apply rnd_le; lra).
  assert (Y1 : V y <= V b - V a).
  { destruct (Rle_dec (V b - V a) (bpow radix2 (-1021))) as [Sm|Lg].
    - assert (Exact : V w = V b - V a).
      { rewrite Ew. apply round_generic; [apply valid_rnd_N|].
        change (V b - V a) with (V b + - V a). apply FLT_format_plus_small.
        - reflexivity. - now apply V_format, Mb. - apply generic_format_opp. now apply V_format, Ma. - change (53 + -1074)%Z with (-1021)%Z. rewrite Rabs_pos_eq; [exact Sm|lra]. }
      rewrite Ey, <- Exact. apply rnd_le_V; [exact Fw|lra].
    - apply Rnot_le_lt in Lg. destruct (Rle_dec (bpow radix2 (-1022)) (V x * V w)) as [Nm|Sb].
      + destruct (rnd_rel (V x * V w)) as (d2 & D2 & E2); [rewrite Rabs_pos_eq; lra|].
        rewrite Ey, E2, Ew, Edd. rewrite u64_val in Dd, D2. apply Rabs_le_inv in Dd, D2. set (D := V b - V a) in *.
        assert (D0 : 0 < D) by (pose proof (bpow_gt_0 radix2 (-1021)); lra).
        replace (V x * (D * (1 + dd)) * (1 + d2)) with (D * (V x * ((1 + dd) * (1 + d2)))) by ring.
        assert (C : V x * ((1 + dd) * (1 + d2)) <= 1).
        { assert (C1 : 0 <= (1 + dd) * (1 + d2) <= 1 + 3 * ee) by (split; [apply Rmult_le_pos; lra|apply Rle_trans with ((1 + ee) * (1 + ee)); [apply Rmult_le_compat; lra|lra]]).
          pw. apply Rle_trans with ((1 - 4 / 10000000000000) * (1 + 3 * ee)); [|lra].
          apply Rmult_le_compat; lra. }
        nra.
      + apply Rnot_le_lt in Sb. rewrite Ey. apply Rle_trans with (bpow radix2 (-1022)).
        * pose proof (rnd_bpow (V x * V w) (-1022) ltac:(lia)) as RB.
          rewrite (Rabs_pos_eq (V x * V w)) in RB by lra. specialize (RB ltac:(lra)). apply Rabs_le_inv in RB. lra.
        * apply Rle_trans with (bpow radix2 (-1021)); [apply bpow_le; lia|lra]. }
  assert (Sa : Rabs (V a + V y) <= bpow radix2 1023).
  { destruct Ma as [_ Ba], Mb as [_ Bb]. apply Rabs_le_inv in Ba, Bb. pose proof b1020_23. apply Rabs_le. lra. }
  destruct (fadd a y (proj1 Ma) Fy Sa) as [F E]. unfold gs_map. fold w y. split; [exact F|]. rewrite E.
  split; [apply rnd_ge; [apply Ma|lra]|apply rnd_le_V; [apply Mb|lra]].
Qed.

Theorem golden_b64 (f : spec_float -> spec_float) fuel a b tol :
  moderate a -> moderate b -> V a <= V b -> isfin tol -> tol0 <= V tol -> (64 <= fuel)%nat ->
  exists r evals, minimizeGoldenSectionSearch f fuel a b tol = Some (r, evals) /\ (length evals <= 66)%nat /\
    forall x, In x (r :: evals) -> isfin x /\ V a <= V x <= V b.
Proof.
  intros Ma Mb L Ft Ht Hf. unfold minimizeGoldenSectionSearch, goldenUnit.
  destruct (nltb _ tol).
  - eexists; eexists; split; [reflexivity|]. split; [simpl; lia|].
    intros x [<-|[]]. apply map_ok; auto.
    assert (E : ndiv (nadd none1 nzero) (nofZ 2) = S754_finite false 4503599627370496 (-53)) by (vm_compute; reflexivity).
    rewrite E. split; [split; reflexivity|]. unfold V, SF2R, Defs.F2R. cbn. lra.
  - destruct (gloop (fun x => f (gs_map a b x)) tol Ft Ht 64 0 (gs_init (fun x => f (gs_map a b x))) fuel eq_refl Hf (ginit _))
      as (s' & j & E & I & Hj & Hlen). rewrite E.
    eexists; eexists; split; [reflexivity|]. split; [rewrite map_length; cbn [gs_init gs_evals length] in Hlen; lia|].
    intros x [<-|Hx].
    + apply map_ok; auto.
      destruct (addB 0 _ _ ltac:(lia) (unit_upto _ (gi_b _ _ I)) (unit_upto _ (gi_a _ _ I))) as [B1 E1].
      destruct (halfB 1 _ ltac:(lia) B1) as [B2 E2]. fold (@two spec_float _) in *. change (nofZ 2) with (@two spec_float _).
      split; [apply B2|]. rewrite E2, E1.
      pose proof (gi_L _ _ I) as HL. destruct (gi_a _ _ I) as [_ Ba], (gi_b _ _ I) as [_ Bb].
      pose proof (rnd_lin (V (gs_b s') + V (gs_a s'))) as R1. rewrite Rabs_pos_eq in R1 by lra.
      assert (P : 0 <= rnd (V (gs_b s') + V (gs_a s'))) by (rewrite <- rnd_0; apply rnd_le; lra).
      set (t := rnd (V (gs_b s') + V (gs_a s'))) in *.
      pose proof (rnd_lin (t / 2)) as R2. rewrite Rabs_pos_eq in R2 by lra.
      assert (T13 : 199 / 10 ^ 14 / 2 - 4 / 10 ^ 13 >= 4 / 10 ^ 13) by (simpl; lra). assert (4 / 10 ^ 13 >= 100 * ee) by (simpl; lra).
      split; [rewrite <- rnd_0; apply rnd_le; lra|]. lra.
    + apply in_map_iff in Hx. destruct Hx as (z & <- & Hz). apply map_ok; auto.
      pose proof (gi_evals _ _ I) as Fe. rewrite Forall_forall in Fe. now apply Fe.
Qed.
