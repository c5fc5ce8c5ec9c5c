(** The backtracking step in binary64 against the same step in exact arithmetic. *)
From Coq Require Import Reals ZArith List Bool Lia Lra.
From Coq Require Import Floats.SpecFloat.
From Flocq Require Import Core.
From Verif Require Import Num Loop_model Loop_spec Round_spec Float_proofs.
Import ListNotations.
Local Open Scope R_scope.

Lemma u64_val : u64 = / 9007199254740992.
Proof. unfold u64. cbn. lra. Qed.
Lemma u64_pos : 0 < u64. Proof. apply bpow_gt_0. Qed.
Lemma eta64_pos : 0 < eta64. Proof. apply bpow_gt_0. Qed.
Lemma eta_u : eta64 <= u64 / 1024.
Proof. unfold u64, eta64. replace 1024 with (/ bpow radix2 (-10)) by (cbn; lra). unfold Rdiv. rewrite Rinv_inv. rewrite <- bpow_plus. apply bpow_le. lia. Qed.
Lemma eta_1 : eta64 <= / 1024.
Proof. pose proof eta_u. rewrite u64_val in H. lra. Qed.

Ltac rb := repeat match goal with
  | H : Rabs ?x <= _ |- _ => apply Rabs_le_inv in H
  end.

Notation moderate := (upto 1020).

Lemma b1020 : bpow radix2 1020 + bpow radix2 1020 = bpow radix2 1021.
Proof. replace 1021%Z with (1 + 1020)%Z by lia. rewrite bpow_plus. change (bpow radix2 1) with 2. lra. Qed.
Lemma b1021 : bpow radix2 1021 + bpow radix2 1021 = bpow radix2 1022.
Proof. replace 1022%Z with (1 + 1021)%Z by lia. rewrite bpow_plus. change (bpow radix2 1) with 2. lra. Qed.
Lemma b1022_23 : bpow radix2 1022 <= bpow radix2 1023.
Proof. apply bpow_le. lia. Qed.
Lemma b1021_23 : bpow radix2 1021 <= bpow radix2 1023.
Proof. apply bpow_le. lia. Qed.
Lemma b1020_23 : bpow radix2 1020 <= bpow radix2 1023.
Proof. apply bpow_le. lia. Qed.

Lemma sub_ok x y : moderate x -> moderate y ->
  isfin (nsub x y) /\ V (nsub x y) = rnd (V x - V y) /\
  exists d, Rabs d <= u64 /\ rnd (V x - V y) = (V x - V y) * (1 + d).
Proof.
  intros [Fx Hx] [Fy Hy].
  assert (S : Rabs (V x - V y) <= bpow radix2 1023).
  { unfold Rminus. eapply Rle_trans; [apply Rabs_triang|]. rewrite Rabs_Ropp. pose proof b1020. pose proof b1021_23. lra. }
  destruct (fsub x y Fx Fy S) as [F E]. split; [exact F|]. split; [exact E|].
  apply (rnd_plus_err (V x) (- V y)).
  - now apply V_format.
  - apply generic_format_opp. now apply V_format.
Qed.

(** the quotient of two differences, the first between 0 and the second *)
Lemma ratio_ok h o v : moderate h -> moderate o -> moderate v ->
  (V o < V h < V v \/ V v < V h < V o) ->
  let q := ndiv (nsub h o) (nsub v o) in
  isfin q /\ 0 <= V q <= 1 /\ Rabs (V q - (V h - V o) / (V v - V o)) <= 4 * u64 /\ 0 < (V h - V o) / (V v - V o) < 1.
Proof.
  intros Mh Mo Mv O q.
  destruct (sub_ok h o Mh Mo) as (Fa & Ea & d1 & D1 & E1), (sub_ok v o Mv Mo) as (Fc & Ec & d2 & D2 & E2).
  assert (R01 : 0 < (V h - V o) / (V v - V o) < 1).
  { destruct O as [O|O].
    - split; [apply Rdiv_lt_0_compat; lra|]. apply Rmult_lt_reg_r with (V v - V o); [lra|]. unfold Rdiv. rewrite Rmult_assoc, Rinv_l; lra.
    - replace ((V h - V o) / (V v - V o)) with ((V o - V h) / (V o - V v)) by (field; lra).
      split; [apply Rdiv_lt_0_compat; lra|]. apply Rmult_lt_reg_r with (V o - V v); [lra|]. unfold Rdiv. rewrite Rmult_assoc, Rinv_l; lra. }
  set (r := (V h - V o) / (V v - V o)) in *.
  assert (Nc : V (nsub v o) <> 0).
  { rewrite Ec. apply rnd_sub_neq; [apply Mv|apply Mo|]. destruct O; lra. }
  assert (Q01 : 0 <= V (nsub h o) / V (nsub v o) <= 1).
  { rewrite Ea, Ec in *. destruct O as [O|O].
    - assert (L : rnd (V h - V o) <= rnd (V v - V o)) by (apply rnd_le; lra).
      assert (P : 0 <= rnd (V h - V o)) by (rewrite <- rnd_0; apply rnd_le; lra).
      assert (C : 0 < rnd (V v - V o)) by lra.
      split; [apply Rmult_le_pos; [exact P|apply Rlt_le, Rinv_0_lt_compat; exact C]|].
      apply Rmult_le_reg_r with (rnd (V v - V o)); [lra|]. unfold Rdiv. rewrite Rmult_assoc, Rinv_l; lra.
    - assert (L : rnd (V v - V o) <= rnd (V h - V o)) by (apply rnd_le; lra).
      assert (P : rnd (V h - V o) <= 0) by (rewrite <- rnd_0; apply rnd_le; lra).
      assert (C : rnd (V v - V o) < 0) by lra.
      replace (rnd (V h - V o) / rnd (V v - V o)) with ((- rnd (V h - V o)) / (- rnd (V v - V o))) by (field; lra).
      split; [apply Rmult_le_pos; [lra|apply Rlt_le, Rinv_0_lt_compat; lra]|].
      apply Rmult_le_reg_r with (- rnd (V v - V o)); [lra|]. unfold Rdiv. rewrite Rmult_assoc, Rinv_l; lra. }
  assert (S : Rabs (V (nsub h o) / V (nsub v o)) <= bpow radix2 1023).
  { rewrite Rabs_pos_eq by lra. apply Rle_trans with 1; [lra|]. change 1 with (bpow radix2 0). apply bpow_le. lia. }
  destruct (fdiv _ _ Fa Fc Nc S) as [Fq Eq]. fold q in Fq, Eq.
  split; [exact Fq|]. split; [|split; [|exact R01]].
  - rewrite Eq. rewrite <- rnd_0 at 1. rewrite <- rnd_1. split; apply rnd_le; lra.
  - destruct (rnd_err (V (nsub h o) / V (nsub v o))) as (d3 & e3 & D3 & E3 & X3).
    rewrite Eq, X3. set (t := V (nsub h o) / V (nsub v o)) in *.
    assert (T : t * (1 + d2) = r * (1 + d1)).
    { unfold t, r. rewrite Ea, Ec, E1, E2. field.
      rewrite Ec, E2 in Nc. split; [destruct O; lra|intros Z; apply Nc; rewrite Z; ring]. }
    rb. pose proof u64_val. pose proof eta_u.
    assert (A1 : t - r = r * d1 - t * d2) by lra.
    assert (A2 : - u64 <= r * d1 <= u64) by nra.
    assert (A3 : - u64 <= t * d2 <= u64) by nra.
    assert (A4 : - u64 <= t * d3 <= u64) by nra.
    apply Rabs_le. lra.
Qed.

(** the computed step fraction against the exact one *)
Definition near (b : spec_float) (c : xreal) : Prop :=
  isfin b /\ 0 <= V b <= 1 /\ exists r, c = XF r /\ 0 <= r <= 1 /\ Rabs (V b - r) <= 4 * u64.

Lemma near_min b c q r : near b (XF c) -> near q (XF r) -> near (nmin b q) (nmin (XF c) (XF r)).
Proof.
  intros (Fb & Ib & c' & Ec & Ic & Nc) (Fq & Iq & r' & Er & Ir & Nr). injection Ec as <-. injection Er as <-.
  unfold near. cbv [nmin]. rewrite (fltb q b Fq Fb). cbn [nltb Num_xreal xltb]. unfold rltb.
  pose proof u64_pos. rb.
  destruct (Rlt_dec (V q) (V b)), (Rlt_dec r c); (split; [assumption|split; [assumption|]]);
    [exists r|exists c|exists r|exists c]; (split; [reflexivity|split; [assumption|apply Rabs_le; lra]]).
Qed.

Definition entry_ok (c : (spec_float * spec_float) * (spec_float * spec_float)) : Prop :=
  let '((o, v), (lo, hi)) := c in moderate o /\ moderate v /\ valid lo /\ valid hi.
Definition xentry (c : (spec_float * spec_float) * (spec_float * spec_float)) :=
  let '((o, v), (lo, hi)) := c in ((xof o, xof v), (xof lo, xof hi)).

Lemma between_moderate a h b : moderate a -> moderate b -> valid h ->
  nltb a h = true -> nltb h b = true -> moderate h /\ V a < V h < V b.
Proof.
  intros [Fa Ha] [Fb Hb] Vh L1 L2.
  destruct (valid_cases _ Vh) as [Fh|[[s ->]| ->]].
  - rewrite fltb in L1, L2 by assumption. unfold rltb in *.
    destruct (Rlt_dec (V a) (V h)); [|discriminate]. destruct (Rlt_dec (V h) (V b)); [|discriminate].
    split; [split; [exact Fh|]|lra]. rb. apply Rabs_le. lra.
  - destruct s; [destruct a; try (now destruct Fa); discriminate|destruct b; try (now destruct Fb); discriminate].
  - destruct a; discriminate.
Qed.

Lemma xsub_fin a b : nsub (XF a) (XF b) = XF (a - b).
Proof. reflexivity. Qed.
Lemma xdiv_fin a b : b <> 0 -> ndiv (XF a) (XF b) = XF (a / b).
Proof. intros H. cbn. unfold reqb. destruct (Req_EM_T b 0); [contradiction|reflexivity]. Qed.

Lemma near_step b c e : near b c -> entry_ok e -> near (beta_step b e) (beta_step c (xentry e)).
Proof.
  intros Nb. destruct e as [[o v] [lo hi]]. intros (Mo & Mv & Vl & Vh). cbn [xentry].
  unfold beta_step, ngtb.
  pose proof (isfin_valid _ (proj1 Mo)) as Wo. pose proof (isfin_valid _ (proj1 Mv)) as Wv.
  rewrite <- (xeqb_of v o), <- (xltb_of hi v), <- (xltb_of o hi), <- (xltb_of v lo), <- (xltb_of lo o) by assumption.
  destruct (neqb v o); [exact Nb|].
  assert (Nb' := Nb). destruct Nb' as (Fb & Ib & r & -> & Ir & Nr).
  destruct (nltb hi v && nltb o hi) eqn:E.
  - apply andb_prop in E as [E1 E2].
    destruct (between_moderate o hi v Mo Mv Vh E2 E1) as [Mh O].
    destruct (ratio_ok hi o v Mh Mo Mv (or_introl O)) as (Fq & Iq & Nq & I).
    rewrite (xof_fin _ (proj1 Mh)), (xof_fin _ (proj1 Mo)), (xof_fin _ (proj1 Mv)), !xsub_fin, xdiv_fin by lra.
    apply near_min; [exact Nb|]. split; [exact Fq|]. split; [exact Iq|]. eexists. split; [reflexivity|]. split; [lra|exact Nq].
  - destruct (nltb v lo && nltb lo o) eqn:E'; [|exact Nb].
    apply andb_prop in E' as [E1 E2].
    destruct (between_moderate v lo o Mv Mo Vl E1 E2) as [Mh O].
    destruct (ratio_ok lo o v Mh Mo Mv (or_intror O)) as (Fq & Iq & Nq & I).
    rewrite (xof_fin _ (proj1 Mh)), (xof_fin _ (proj1 Mo)), (xof_fin _ (proj1 Mv)), !xsub_fin, xdiv_fin by lra.
    apply near_min; [exact Nb|]. split; [exact Fq|]. split; [exact Iq|]. eexists. split; [reflexivity|]. split; [lra|exact Nq].
Qed.

Lemma near_fold l : forall b c, near b c -> Forall entry_ok l ->
  near (fold_left beta_step l b) (fold_left beta_step (map xentry l) c).
Proof.
  induction l as [|e l IH]; intros b c Nb A; [exact Nb|]. inversion A as [|? ? He Hl]; subst.
  cbn [fold_left map]. apply IH; [|exact Hl]. now apply near_step.
Qed.

Lemma combine_map_xof (o v lo hi : list spec_float) :
  combine (combine (map xof o) (map xof v)) (combine (map xof lo) (map xof hi)) = map xentry (combine (combine o v) (combine lo hi)).
Proof.
  revert v lo hi. induction o as [|a o IH]; intros [|b v] [|c lo] [|d hi]; cbn; try reflexivity. now rewrite IH.
Qed.

Lemma near_loop b c o v lo hi : near b c -> Forall moderate o -> Forall moderate v -> Forall valid lo -> Forall valid hi ->
  near (beta_loop b o v lo hi) (beta_loop c (map xof o) (map xof v) (map xof lo) (map xof hi)).
Proof.
  intros Nb Ho Hv Hl Hh. unfold beta_loop. rewrite combine_map_xof. apply near_fold; [exact Nb|].
  clear Nb. revert v lo hi Hv Hl Hh.
  induction Ho as [|a o Ha Ho IH]; intros [|d v] [|l lo] [|h hi] Hv Hl Hh; cbn; try constructor.
  - inversion Hv; inversion Hl; inversion Hh; subst. cbn. auto.
  - inversion Hv; inversion Hl; inversion Hh; subst. now apply IH.
Qed.

Lemma one_fin : isfin none1 /\ V none1 = 1.
Proof. split; [split; reflexivity|]. unfold V. cbn. unfold F2R. cbn. lra. Qed.
Lemma near_one : near none1 none1.
Proof.
  destruct one_fin as [F E]. split; [exact F|]. rewrite E. split; [lra|]. exists 1. split; [reflexivity|]. split; [lra|].
  rewrite Rminus_diag_eq by reflexivity. rewrite Rabs_R0. pose proof u64_pos. lra.
Qed.

(** one component of the new point before the bounds are enforced *)
Lemma mix_ok b c o v : near b (XF c) -> moderate o -> moderate v ->
  isfin (mix1 b o v) /\ Rabs (V (mix1 b o v) - ((1 - c) * V o + c * V v)) <= 8 * u64 * (Rabs (V o) + Rabs (V v)) + 4 * eta64.
Proof.
  intros (Fb & Ib & c' & Ec & Ic & Nc) [Fo Ho] [Fv Hv]. injection Ec as <-.
  destruct one_fin as [F1 E1].
  assert (S1 : Rabs (V none1 - V b) <= bpow radix2 1023).
  { rewrite E1. apply Rle_trans with (bpow radix2 0); [cbn; apply Rabs_le; lra|apply bpow_le; lia]. }
  destruct (fsub _ _ F1 Fb S1) as [Fg Eg]. rewrite E1 in Eg.
  set (g := nsub none1 b) in *.
  assert (Ig : 0 <= V g <= 1). { rewrite Eg. rewrite <- rnd_0 at 1. rewrite <- rnd_1 at 3. split; apply rnd_le; lra. }
  destruct (rnd_plus_err 1 (- V b)) as (d & D & Xg).
  { change 1 with (bpow radix2 0). apply generic_format_bpow. unfold FLT_exp. lia. }
  { apply generic_format_opp. now apply V_format. }
  change (1 + - V b) with (1 - V b) in Xg. rewrite Xg in Eg.
  assert (Pgo : Rabs (V g * V o) <= bpow radix2 1020).
  { rewrite Rabs_mult, (Rabs_pos_eq (V g)) by lra. pose proof (Rabs_pos (V o)). nra. }
  assert (Pbv : Rabs (V b * V v) <= bpow radix2 1020).
  { rewrite Rabs_mult, (Rabs_pos_eq (V b)) by lra. pose proof (Rabs_pos (V v)). nra. }
  destruct (fmul g o Fg Fo) as [F2 E2]; [pose proof b1020_23; lra|].
  destruct (fmul b v Fb Fv) as [F3 E3]; [pose proof b1020_23; lra|].
  assert (S4 : Rabs (V (nmul g o) + V (nmul b v)) <= bpow radix2 1023).
  { eapply Rle_trans; [apply Rabs_triang|].
    assert (Rabs (V (nmul g o)) <= bpow radix2 1020) by (rewrite E2; apply rnd_bpow; [lia|exact Pgo]).
    assert (Rabs (V (nmul b v)) <= bpow radix2 1020) by (rewrite E3; apply rnd_bpow; [lia|exact Pbv]).
    pose proof b1020. pose proof b1021_23. lra. }
  destruct (fadd _ _ F2 F3 S4) as [F4 E4]. unfold mix1. fold g. split; [exact F4|].
  destruct (rnd_plus_err _ _ (V_format _ F2) (V_format _ F3)) as (d4 & D4 & X4). rewrite E4, X4.
  destruct (rnd_err (V g * V o)) as (d2 & e2 & D2 & H2 & X2), (rnd_err (V b * V v)) as (d3 & e3 & D3 & H3 & X3).
  rewrite E2, E3, X2, X3.
  set (O := V o) in *. set (W := V v) in *. set (G := V g) in *. set (b0 := V b) in *.
  pose proof u64_pos. pose proof u64_val as UV. pose proof eta64_pos. pose proof eta_1.
  pose proof (Rabs_pos O) as PO. pose proof (Rabs_pos W) as PW.
  assert (AG : Rabs (G - (1 - c)) <= 5 * u64).
  { rewrite Eg. rb. apply Rabs_le. assert (- u64 <= (1 - b0) * d <= u64) by nra. lra. }
  assert (T1 : Rabs (G * O * (1 + d2) + e2 - (1 - c) * O) <= 6 * u64 * Rabs O + eta64).
  { replace (G * O * (1 + d2) + e2 - (1 - c) * O) with ((G - (1 - c)) * O + (G * d2) * O + e2) by ring.
    eapply Rle_trans; [apply Rabs_triang|]. apply Rplus_le_compat; [|exact H2].
    eapply Rle_trans; [apply Rabs_triang|]. rewrite !Rabs_mult.
    assert (Rabs G * Rabs d2 <= u64). { rewrite (Rabs_pos_eq G) by lra. pose proof (Rabs_pos d2). nra. }
    nra. }
  assert (T2 : Rabs (b0 * W * (1 + d3) + e3 - c * W) <= 5 * u64 * Rabs W + eta64).
  { replace (b0 * W * (1 + d3) + e3 - c * W) with ((b0 - c) * W + (b0 * d3) * W + e3) by ring.
    eapply Rle_trans; [apply Rabs_triang|]. apply Rplus_le_compat; [|exact H3].
    eapply Rle_trans; [apply Rabs_triang|]. rewrite !Rabs_mult.
    assert (Rabs b0 * Rabs d3 <= u64). { rewrite (Rabs_pos_eq b0) by lra. pose proof (Rabs_pos d3). nra. }
    nra. }
  set (A := G * O * (1 + d2) + e2) in *. set (B := b0 * W * (1 + d3) + e3) in *.
  assert (EA : Rabs A <= Rabs O * (1 + 6 * u64) + eta64).
  { replace A with ((A - (1 - c) * O) + (1 - c) * O) by ring. eapply Rle_trans; [apply Rabs_triang|].
    rewrite (Rabs_mult (1 - c)), (Rabs_pos_eq (1 - c)) by lra. nra. }
  assert (EB : Rabs B <= Rabs W * (1 + 5 * u64) + eta64).
  { replace B with ((B - c * W) + c * W) by ring. eapply Rle_trans; [apply Rabs_triang|].
    rewrite (Rabs_mult c), (Rabs_pos_eq c) by lra. nra. }
  replace ((A + B) * (1 + d4) - ((1 - c) * O + c * W)) with ((A - (1 - c) * O) + (B - c * W) + (A + B) * d4) by ring.
  eapply Rle_trans; [apply Rabs_triang|].
  assert (Q1 : Rabs (A - (1 - c) * O + (B - c * W)) <= 6 * u64 * (Rabs O + Rabs W) + 2 * eta64).
  { eapply Rle_trans; [apply Rabs_triang|]. nra. }
  assert (Q2 : Rabs ((A + B) * d4) <= u64 * ((Rabs O + Rabs W) * (1 + 6 * u64) + 2 * eta64)).
  { rewrite Rabs_mult, Rmult_comm. apply Rmult_le_compat; try apply Rabs_pos; [exact D4|].
    eapply Rle_trans; [apply Rabs_triang|]. nra. }
  assert (Q3 : u64 * ((Rabs O + Rabs W) * (1 + 6 * u64) + 2 * eta64) <= 2 * u64 * (Rabs O + Rabs W) + 2 * eta64) by nra.
  lra.
Qed.

(** ** Enforcing the bounds *)
Definition clamp1 {T} {N : Num T} (v lo hi : T) : T := nmin (nmax v lo) hi.

Lemma valid_min a b : valid a -> valid b -> valid (nmin a b) /\ xof (nmin a b) = nmin (xof a) (xof b).
Proof. intros Ha Hb. unfold nmin. rewrite <- (xltb_of b a) by assumption. destruct (nltb b a); auto. Qed.
Lemma valid_max a b : valid a -> valid b -> valid (nmax a b) /\ xof (nmax a b) = nmax (xof a) (xof b).
Proof. intros Ha Hb. unfold nmax. rewrite <- (xltb_of a b) by assumption. destruct (nltb a b); auto. Qed.
Lemma xof_inv a r : valid a -> xof a = XF r -> isfin a /\ V a = r.
Proof.
  intros Va E. destruct (valid_cases _ Va) as [F|[[s ->]| ->]]; [|destruct s; discriminate|discriminate].
  rewrite xof_fin in E by exact F. injection E as E. auto.
Qed.

Lemma clamp_ext lo hi o c : nleb lo (XF o) = true -> nleb (XF o) hi = true ->
  exists c', clamp1 (XF c) lo hi = XF c' /\ Rabs c' <= Rmax (Rabs c) (Rabs o).
Proof.
  intros L H. unfold clamp1.
  assert (exists m, nmax (XF c) lo = XF m /\ (m = c \/ (lo = XF m /\ c < m <= o))) as (m & E & Hm).
  { destruct lo as [l| | |]; try discriminate; unfold nmax; cbn in *.
    - unfold rltb, rleb in *. destruct (Rlt_dec c l); [exists l|exists c]; split; auto.
      right. split; [reflexivity|]. destruct (Rle_dec l o); [lra|discriminate].
    - exists c. auto. }
  rewrite E.
  assert (exists k, nmin (XF m) hi = XF k /\ (k = m \/ (hi = XF k /\ o <= k < m))) as (k & E' & Hk).
  { destruct hi as [h| | |]; try discriminate; unfold nmin; cbn in *.
    - unfold rltb, rleb in *. destruct (Rlt_dec h m); [exists h|exists m]; split; auto.
      right. split; [reflexivity|]. destruct (Rle_dec o h); [lra|discriminate].
    - exists m. auto. }
  exists k. split; [exact E'|].
  unfold Rmax. destruct (Rle_dec (Rabs c) (Rabs o)); unfold Rabs in *; repeat destruct Rcase_abs; destruct Hm as [->|[_ Hm]], Hk as [->|[_ Hk]]; lra.
Qed.

Lemma clamp_lip lo hi a b a' b' : clamp1 (XF a) lo hi = XF a' -> clamp1 (XF b) lo hi = XF b' -> Rabs (a' - b') <= Rabs (a - b).
Proof.
  unfold clamp1, nmin, nmax. destruct lo as [l| | |], hi as [h| | |]; cbn; unfold rltb;
    repeat (match goal with |- context [Rlt_dec ?x ?y] => destruct (Rlt_dec x y) end; cbn);
    try discriminate; intros Ea Eb; try (injection Ea as <-); try (injection Eb as <-); try discriminate;
    try (unfold Rabs; repeat destruct Rcase_abs; lra).
Qed.

Lemma clamp_round v c lo hi o : isfin v -> valid lo -> valid hi -> isfin o -> nleb lo o = true -> nleb o hi = true ->
  isfin (clamp1 v lo hi) /\ Rabs (V (clamp1 v lo hi)) <= Rmax (Rabs (V v)) (Rabs (V o)) /\
  exists c', clamp1 (XF c) (xof lo) (xof hi) = XF c' /\ Rabs (V (clamp1 v lo hi) - c') <= Rabs (V v - c).
Proof.
  intros Fv Wl Wh Fo L H. pose proof (isfin_valid _ Fv) as Wv. pose proof (isfin_valid _ Fo) as Wo.
  rewrite xleb_of in L, H by assumption. rewrite (xof_fin _ Fo) in L, H.
  destruct (valid_max v lo Wv Wl) as [W1 E1]. destruct (valid_min _ hi W1 Wh) as [W2 E2].
  rewrite E1, (xof_fin _ Fv) in E2. fold (clamp1 v lo hi) in W2, E2. fold (clamp1 (XF (V v)) (xof lo) (xof hi)) in E2.
  destruct (clamp_ext (xof lo) (xof hi) (V o) (V v) L H) as (k & Ek & Bk).
  destruct (clamp_ext (xof lo) (xof hi) (V o) c L H) as (c' & Ec & _).
  rewrite Ek in E2. destruct (xof_inv _ _ W2 E2) as [F ->]. split; [exact F|]. split; [exact Bk|].
  exists c'. split; [exact Ec|]. exact (clamp_lip _ _ _ _ _ _ Ek Ec).
Qed.

(** ** Vectors *)
Lemma map2_len {T} (f : T -> T -> T) a b : length b = length a -> length (map2 f a b) = length a.
Proof. intros H. unfold map2. rewrite map_length, combine_length. lia. Qed.
Lemma nth_m2 {T} (f : T -> T -> T) a b i d : (i < length a)%nat -> (i < length b)%nat -> nth i (map2 f a b) d = f (nth i a d) (nth i b d).
Proof.
  revert b i. induction a as [|x a IH]; intros [|y b] [|i] Ha Hb; cbn in *; try lia; [reflexivity|]. apply IH; lia.
Qed.
Lemma nth_clampv {T} {N : Num T} (v lo hi : list T) i d : (i < length v)%nat -> length lo = length v -> length hi = length v ->
  nth i (clampv v lo hi) d = clamp1 (nth i v d) (nth i lo d) (nth i hi d).
Proof. intros H L1 L2. unfold clampv, clamp1. rewrite nth_m2, nth_m2 by (rewrite ?map2_len; lia). reflexivity. Qed.
Lemma clampv_len {T} {N : Num T} (v lo hi : list T) : length lo = length v -> length hi = length v -> length (clampv v lo hi) = length v.
Proof. intros L1 L2. unfold clampv. rewrite !map2_len; rewrite ?map2_len; lia. Qed.
Lemma nth_xof l i : nth i (map xof l) XNaN = xof (nth i l S754_nan).
Proof. exact (map_nth xof l S754_nan i). Qed.

Lemma Forall_at {T} (P : T -> Prop) l i d : Forall P l -> (i < length l)%nat -> P (nth i l d).
Proof. intros H L. rewrite Forall_forall in H. apply H. now apply nth_In. Qed.

Lemma within_at lo v hi i : within lo v hi -> length lo = length v -> length hi = length v -> (i < length v)%nat -> isfin (nth i v S754_nan) ->
  nleb (nth i lo S754_nan) (nth i v S754_nan) = true /\ nleb (nth i v S754_nan) (nth i hi S754_nan) = true.
Proof.
  intros W L1 L2 H F. specialize (W i H).
  rewrite (nth_indep v nzero S754_nan H), (nth_indep lo nzero S754_nan), (nth_indep hi nzero S754_nan) in W by lia.
  destruct W as [W|W]; [|exact W]. destruct F as [_ F]. destruct (nth i v S754_nan); discriminate.
Qed.

Lemma round_w b c o v : near b (XF c) -> length v = length o -> Forall moderate o -> Forall moderate v ->
  rounded o v (map2 (mix1 b) o v) (map2 (mix1 (XF c)) (map xof o) (map xof v)).
Proof.
  intros Nb L Mo Mv. split; [apply map2_len; exact L|]. split; [rewrite map2_len; rewrite !map_length; auto|].
  intros i Hi. rewrite nth_m2, nth_m2 by (rewrite ?map_length; lia). rewrite !nth_xof.
  pose proof (Forall_at _ o i S754_nan Mo Hi) as Moi. pose proof (Forall_at _ v i S754_nan Mv ltac:(lia)) as Mvi.
  destruct (mix_ok b c _ _ Nb Moi Mvi) as [F E].
  rewrite (xof_fin _ (proj1 Moi)), (xof_fin _ (proj1 Mvi)).
  eexists. split; [exact F|]. split; [reflexivity|].
  replace (bpow radix2 (-50)) with (8 * u64) by (unfold u64; replace (-50)%Z with (3 + -53)%Z by lia; rewrite bpow_plus; cbn; lra).
  replace (bpow radix2 (-1073)) with (4 * eta64) by (unfold eta64; replace (-1073)%Z with (2 + -1075)%Z by lia; rewrite bpow_plus; change (bpow radix2 2) with 4; ring).
  exact E.
Qed.

Lemma round_clamp o v r e lo hi : rounded o v r e -> length v = length o -> length lo = length o -> length hi = length o ->
  Forall moderate o -> Forall valid lo -> Forall valid hi -> within lo o hi ->
  rounded o v (clampv r lo hi) (clampv e (map xof lo) (map xof hi)).
Proof.
  intros (L1 & L2 & R) Lv Ll Lh Mo Wl Wh I.
  split; [rewrite clampv_len; lia|]. split; [rewrite clampv_len; rewrite ?map_length; lia|].
  intros i Hi. destruct (R i Hi) as (c & F & E & D).
  rewrite !nth_clampv by (rewrite ?map_length; lia). rewrite E, !nth_xof.
  pose proof (Forall_at _ o i S754_nan Mo Hi) as Moi.
  destruct (within_at lo o hi i I) as [A B]; try lia; [exact (proj1 Moi)|].
  destruct (clamp_round _ c _ _ _ F (Forall_at _ lo i S754_nan Wl ltac:(lia)) (Forall_at _ hi i S754_nan Wh ltac:(lia)) (proj1 Moi) A B) as (F' & _ & c' & Ec & Dc).
  exists c'. split; [exact F'|]. split; [exact Ec|]. eapply Rle_trans; [exact Dc|exact D].
Qed.

Lemma F2_len {A B} (P : A -> B -> Prop) a b : Forall2 P a b -> length a = length b.
Proof. induction 1; cbn; auto. Qed.

Lemma betamin_near nx np B uo u : good_bounds nx np B -> valid_bounds B -> all_of moderate uo -> all_of moderate u ->
  near (betamin B uo u) (betamin (xbounds B) (xvec uo) (xvec u)).
Proof.
  intros (_ & _ & _ & _) (V1 & V2 & V3 & V4) (A1 & A2 & A3) (C1 & C2 & C3). unfold betamin.
  apply near_loop; auto. apply near_loop; auto. exact near_one.
Qed.

Lemma backtrack_round nx np nw B uo u :
  good_bounds nx np B -> valid_bounds B -> sized nx np nw uo -> sized nx np nw u ->
  inbox B uo -> all_of moderate uo -> all_of moderate u ->
  let r := backtrack false B uo u in let e := backtrack false (xbounds B) (xvec uo) (xvec u) in
  rounded (ux uo) (ux u) (ux r) (ux e) /\ rounded (up uo) (up u) (up r) (up e) /\ rounded (uw uo) (uw u) (uw r) (uw e).
Proof.
  intros G VB (S1 & S2 & S3) (T1 & T2 & T3) [I1 I2] Ao Au.
  pose proof (betamin_near nx np B uo u G VB Ao Au) as Nb.
  destruct G as (G1 & G2 & G3 & G4). apply F2_len in G3. apply F2_len in G4.
  destruct VB as (V1 & V2 & V3 & V4), Ao as (A1 & A2 & A3), Au as (C1 & C2 & C3).
  cbn zeta. unfold backtrack. assert (Nb' := Nb). destruct Nb' as (_ & _ & c & E & _). rewrite E in *.
  set (b := betamin B uo u) in *. unfold clampu, mix. cbn [ux up uw xvec xbounds xlo xhi plo phi_].
  split; [|split].
  - apply round_clamp; auto; try lia. apply round_w; auto. lia.
  - apply round_clamp; auto; try lia. apply round_w; auto. lia.
  - apply round_w; auto. lia.
Qed.
