(** Proofs about the residual computed in binary64. *)
From Coq Require Import Reals List Arith Bool Lia Lra Permutation.
From Coq Require Import Floats.SpecFloat.
From Flocq Require Import Core BinarySingleNaN.
From Verif Require Import Num Index_model Index_proofs MatUtil_model ResErr_model Round_spec Float_proofs Round_proofs FSum_model FSum_spec FSum_proofs.
From Verif Require Import FResidual_model FResidual_spec.
Import ListNotations.
Local Open Scope R_scope.

(* ---------- comparisons ---------- *)
Lemma valid_abs x : valid x -> valid (nabs x).
Proof. intros H. now destruct x. Qed.
Lemma V_abs x : isfin x -> V (nabs x) = Rabs (V x).
Proof.
  intros [_ F]. destruct x as [s| | |s m e]; try discriminate; unfold V; cbn [nabs Num_b64 SFabs SF2R].
  - now rewrite Rabs_R0.
  - unfold F2R. cbn [Fnum Fexp cond_Zopp]. rewrite Rabs_mult, (Rabs_pos_eq (bpow radix2 e)) by apply bpow_ge_0.
    rewrite <- abs_IZR. f_equal. f_equal. now destruct s.
Qed.
Lemma fin_abs x : isfin (nabs x) -> isfin x.
Proof. intros [H F]. destruct x; try discriminate; split; auto. Qed.
Lemma fin_abs' x : isfin x -> isfin (nabs x).
Proof. intros [H F]. destruct x; try discriminate; split; auto. Qed.
Lemma notnan_abs x : not_nan x -> not_nan (nabs x).
Proof. intros H. destruct x; try discriminate. congruence. Qed.

Lemma nmax_lt a b t : valid a -> valid b -> valid t -> not_nan a -> not_nan b -> nltb (nmax a b) t = true ->
  nltb a t = true /\ nltb b t = true.
Proof.
  intros Va Vb Vt Na Nb. unfold nmax.
  destruct (nltb a b) eqn:E; intros H; (split; [|]); try exact H; revert E H;
    rewrite !xltb_of by assumption;
    destruct (valid_cases _ Va) as [Fa|[[s ->]| ->]], (valid_cases _ Vb) as [Fb|[[s' ->]| ->]], (valid_cases _ Vt) as [Ft|[[s'' ->]| ->]];
    try (now elim Na); try (now elim Nb);
    try rewrite (xof_fin _ Fa); try rewrite (xof_fin _ Fb); try rewrite (xof_fin _ Ft);
    try (destruct s); try (destruct s'); try (destruct s''); cbn; try congruence;
    unfold rltb; repeat (destruct (Rlt_dec _ _)); try congruence; lra.
Qed.

Definition good (x : spec_float) : Prop := valid x /\ not_nan x.
Lemma good_max a b : good a -> good b -> good (nmax a b).
Proof. unfold nmax. destruct (nltb a b); auto. Qed.
Lemma good_abs a : good a -> good (nabs a).
Proof. intros [H K]. split; [now apply valid_abs|now apply notnan_abs]. Qed.
Lemma good_zero : good nzero.
Proof. split; [reflexivity|discriminate]. Qed.
Lemma good_fin a : isfin a -> good a.
Proof. intros [H F]. split; [exact H|]. intros ->. discriminate. Qed.

Lemma maxfold_good (v : nat -> spec_float) l m : good m -> (forall i, In i l -> good (v i)) ->
  good (fold_left (fun m i => nmax m (nabs (v i))) l m).
Proof.
  revert m. induction l as [|a l IH]; intros m Hm H; [exact Hm|]. cbn [fold_left]. apply IH.
  - apply good_max; [exact Hm|]. apply good_abs, H. now left.
  - intros i Hi. apply H. now right.
Qed.
Lemma maxfold_lt (v : nat -> spec_float) t l m : valid t -> good m -> (forall i, In i l -> good (v i)) ->
  nltb (fold_left (fun m i => nmax m (nabs (v i))) l m) t = true ->
  nltb m t = true /\ forall i, In i l -> nltb (nabs (v i)) t = true.
Proof.
  intros Vt. revert m. induction l as [|a l IH]; intros m Hm H E; [split; [exact E|contradiction]|].
  cbn [fold_left] in E.
  assert (Ga : good (nabs (v a))) by (apply good_abs, H; now left).
  apply IH in E; [|now apply good_max|intros i Hi; apply H; now right].
  destruct E as [E1 E2]. apply nmax_lt in E1; try apply Hm; try apply Ga; try exact Vt. destruct E1 as [E1 E3].
  split; [exact E1|]. intros i [<-|Hi]; [exact E3|auto].
Qed.
Lemma norminf_good n (v : nat -> spec_float) : (forall i, (i < n)%nat -> good (v i)) -> good (norminf n v).
Proof.
  intros H. unfold norminf. destruct n as [|n]; [apply good_zero|]. cbn [Nat.eqb]. unfold maxAbs1.
  apply maxfold_good; [apply good_abs, H; lia|]. intros i Hi. apply in_seq in Hi. apply H. lia.
Qed.
Lemma norminf_lt n (v : nat -> spec_float) t : valid t -> (forall i, (i < n)%nat -> good (v i)) -> nltb (norminf n v) t = true ->
  forall i, (i < n)%nat -> nltb (nabs (v i)) t = true.
Proof.
  intros Vt H E i Hi. unfold norminf in E. destruct n as [|n]; [lia|]. cbn [Nat.eqb] in E. unfold maxAbs1 in E.
  apply maxfold_lt in E; [|exact Vt|apply good_abs, H; lia|intros j Hj; apply in_seq in Hj; apply H; lia].
  apply E. apply in_seq. lia.
Qed.

Lemma below_tol x t : valid x -> isfin t -> nltb (nabs x) t = true -> isfin x /\ Rabs (V x) < V t.
Proof.
  intros Vx Ft. rewrite xltb_of by (auto using valid_abs; apply Ft). rewrite (xof_fin _ Ft).
  destruct (valid_cases _ Vx) as [F|[[s ->]| ->]].
  - rewrite (xof_fin _ (fin_abs' _ F)), (V_abs _ F). cbn. unfold rltb. destruct (Rlt_dec _ _); [auto|congruence].
  - destruct s; cbn; congruence.
  - cbn; congruence.
Qed.

Lemma abs_abs (x : spec_float) : nabs (nabs x) = nabs x.
Proof. now destruct x. Qed.

Section Err.
Variables (d : fdata) (r : fresidual) (tol : spec_float).
Hypothesis Ft : isfin tol.
Hypothesis Nb : numbers d.
Hypothesis C : computed d r.
Hypothesis NO : no_nan d r.
Hypothesis E : nltb (computed_error d r) tol = true.

Lemma ax_valid i : (i < fnx d)%nat -> valid (ra_x r i).
Proof.
  intros Hi. destruct C as (C1 & _). destruct (C1 i Hi) as [A B].
  destruct (in_dec Nat.eq_dec i (fju d)) as [I|I]; [rewrite (A I); reflexivity|].
  destruct (B I) as (s & Es & ->). apply valid_opp. eapply evalsum_valid; eassumption.
Qed.
Lemma awbs_valid i : (i < fnbs d)%nat -> valid (ra_wbs r i).
Proof. intros Hi. destruct C as (_ & _ & _ & _ & C5). eapply evalsum_valid. apply (C5 i Hi). Qed.

Lemma ex_good i : (i < fnx d)%nat -> good (err_ex (ra_x r) (fx d) (fxl d) (fxu d) (fju d) (fjbs d) i).
Proof.
  intros Hi. unfold err_ex. destruct (contains i (fjbs d) && neqb (fx d i) (fxu d i)); [apply good_zero|].
  destruct (contains i (fjbs d) && neqb (fx d i) (fxl d i)); [apply good_zero|].
  destruct (contains i (fju d)); [apply good_zero|]. apply good_abs. split; [now apply ax_valid|]. now apply NO.
Qed.
Lemma ep_good k : (k < fnp d)%nat -> good (err_ep (ra_p r) k).
Proof.
  intros Hk. unfold err_ep. apply good_abs. destruct C as (_ & C2 & _). rewrite (C2 k Hk).
  assert (F : isfin (fv d k)) by apply Nb. destruct F as [Vv F]. destruct (fv d k); try discriminate; split; try assumption; discriminate.
Qed.
Lemma ew_good i : (i < fnw d)%nat -> good (err_ewbar (fnbs d) (ra_wbs r) i).
Proof.
  intros Hi. unfold err_ewbar. destruct (Nat.ltb_spec i (fnbs d)) as [L|L]; [|apply good_zero].
  apply good_abs. split; [now apply awbs_valid|]. now apply NO.
Qed.
Lemma err_parts :
  (forall i, (i < fnx d)%nat -> nltb (nabs (err_ex (ra_x r) (fx d) (fxl d) (fxu d) (fju d) (fjbs d) i)) tol = true) /\
  (forall k, (k < fnp d)%nat -> nltb (nabs (err_ep (ra_p r) k)) tol = true) /\
  (forall i, (i < fnw d)%nat -> nltb (nabs (err_ewbar (fnbs d) (ra_wbs r) i)) tol = true).
Proof.
  assert (Vt : valid tol) by apply Ft.
  assert (G1 := norminf_good _ _ ex_good). assert (G2 := norminf_good _ _ ep_good). assert (G3 := norminf_good _ _ ew_good).
  assert (E' := E). unfold computed_error, err_update, err_max in E'.
  assert (G12 := good_max _ _ G1 G2).
  apply nmax_lt in E'; try exact Vt; try apply G12; try apply G3. destruct E' as [E1 E3].
  apply nmax_lt in E1; try exact Vt; try apply G1; try apply G2. destruct E1 as [E1 E2].
  split; [|split].
  - exact (norminf_lt _ _ _ Vt ex_good E1).
  - exact (norminf_lt _ _ _ Vt ep_good E2).
  - exact (norminf_lt _ _ _ Vt ew_good E3).
Qed.

Lemma neqb_xof x y : isfin x -> valid y -> neqb x y = true -> xof x = xof y.
Proof.
  intros Fx Vy. rewrite xeqb_of by (try exact Vy; apply Fx). rewrite (xof_fin _ Fx).
  destruct (valid_cases _ Vy) as [F|[[s ->]| ->]].
  - rewrite (xof_fin _ F). cbn. unfold reqb. destruct (Req_EM_T _ _); congruence.
  - destruct s; cbn; congruence.
  - cbn; congruence.
Qed.

Lemma ax_small i : (i < fnx d)%nat -> ~ In i (fju d) ->
  (In i (fjbs d) -> xof (fx d i) <> xof (fxl d i) /\ xof (fx d i) <> xof (fxu d i)) ->
  isfin (ra_x r i) /\ Rabs (V (ra_x r i)) < V tol.
Proof.
  intros Hi Hu Hb. destruct err_parts as (E1 & _ & _). specialize (E1 i Hi). unfold err_ex in E1.
  apply contains_false in Hu. rewrite Hu in E1.
  assert (Q : forall y, valid y -> (In i (fjbs d) -> xof (fx d i) <> xof y) -> contains i (fjbs d) && neqb (fx d i) y = false).
  { intros y Vy Hy. destruct (contains i (fjbs d)) eqn:Cb; [|reflexivity]. apply contains_In in Cb. cbn [andb].
    destruct (neqb (fx d i) y) eqn:Q; [|reflexivity]. elim (Hy Cb). apply neqb_xof; auto. apply Nb. }
  rewrite !Q in E1.
  - rewrite abs_abs in E1. apply below_tol; auto using ax_valid.
  - apply Nb.
  - intros I. now apply Hb.
  - apply Nb.
  - intros I. now apply Hb.
Qed.
Lemma ap_small k : (k < fnp d)%nat -> Rabs (V (fv d k)) < V tol.
Proof.
  intros Hk. destruct err_parts as (_ & E2 & _). specialize (E2 k Hk). unfold err_ep in E2. rewrite abs_abs in E2.
  destruct C as (_ & C2 & _). rewrite (C2 k Hk) in E2. apply below_tol in E2; [|apply valid_opp; apply Nb|exact Ft].
  destruct E2 as [_ E2]. rewrite V_opp, Rabs_Ropp in E2. exact E2.
Qed.
Lemma awbs_small i : (fnbs d <= fnw d)%nat -> (i < fnbs d)%nat -> isfin (ra_wbs r i) /\ Rabs (V (ra_wbs r i)) < V tol.
Proof.
  intros Hn Hi. destruct err_parts as (_ & _ & E3). specialize (E3 i ltac:(lia)). unfold err_ewbar in E3.
  destruct (Nat.ltb_spec i (fnbs d)) as [L|L]; [|lia]. rewrite abs_abs in E3. apply below_tol; auto using awbs_valid.
Qed.
End Err.

(* ---------- errors of computed quantities ---------- *)
Definition approx (n : nat) (x X A s : R) : Prop :=
  Rabs (x - X) <= gam n * A + s * (1 + gam n) /\ Rabs X <= A /\ 0 <= s.

Lemma gam_plus n m : 1 + gam (n + m) = (1 + gam n) * (1 + gam m).
Proof. rewrite <- !pow_gam. apply pow_add. Qed.

Lemma approx_mono n m x X A s A' s' : (n <= m)%nat -> A <= A' -> s <= s' -> approx n x X A s -> approx m x X A' s'.
Proof.
  intros H HA Hs (H1 & H2 & H3). pose proof (gam_mono n m H). pose proof (gam_pos n). pose proof (Rabs_pos X).
  split; [|split; lra]. eapply Rle_trans; [exact H1|]. apply Rplus_le_compat; apply Rmult_le_compat; lra.
Qed.
Lemma map_XF_inj l m : map XF l = map XF m -> l = m.
Proof. revert m. induction l as [|a l IH]; intros [|b m] H; try discriminate; [reflexivity|]. cbn in H. injection H as -> H. f_equal. auto. Qed.
Lemma approx_eval l v : evalsum (map XF l) v -> isfin v -> approx (length l) (V v) (Lsum l) (Labs l) (INR (length l) * eta64).
Proof.
  intros E F. destruct (evalsum_err _ v E F) as (rs & Q & H). apply map_XF_inj in Q. subst rs.
  rewrite tiny_eq in H. split; [exact H|]. split; [apply Lsum_abs|].
  pose proof (pos_INR (length l)). pose proof eta64_pos. nra.
Qed.
Lemma eval_fin l v : evalsum l v -> isfin v -> forall t, In t l -> exists z, t = XF z.
Proof.
  intros E F t Ht. destruct (evalsum_real l v E F) as (rs & -> & _). apply in_map_iff in Ht. destruct Ht as (z & <- & _). eauto.
Qed.
Lemma xof_XF x z : valid x -> xof x = XF z -> isfin x.
Proof. intros Vx H. destruct (valid_cases _ Vx) as [F|[[s ->]| ->]]; [exact F|destruct s; discriminate|discriminate]. Qed.
Lemma prod_XF a b z : valid b -> isfin a -> prod a b = XF z -> isfin b.
Proof.
  intros Vb Fa. unfold prod. rewrite (xof_fin _ Fa). destruct (valid_cases _ Vb) as [F|[[s ->]| ->]]; [auto| |discriminate].
  destruct s; cbn; unfold xinf_mul; destruct (reqb _ _); try discriminate; destruct (rltb _ _); discriminate.
Qed.
Lemma prod_fin a b : isfin a -> isfin b -> prod a b = XF (V a * V b).
Proof. intros Fa Fb. unfold prod. now rewrite (xof_fin _ Fa), (xof_fin _ Fb). Qed.
Lemma approx_size n x X A s : approx n x X A s -> Rabs x <= (1 + gam n) * (A + s).
Proof.
  intros (H1 & H2 & H3). pose proof (gam_pos n). replace x with ((x - X) + X) by ring. eapply Rle_trans; [apply Rabs_triang|].
  nra.
Qed.
(** a further computation of y from approximate data *)
Lemma approx_comp n m t y Y A B s s' : approx n y Y A s -> Rabs (t - y) <= gam m * B + s' * (1 + gam m) -> 0 <= s' ->
  B <= (1 + gam n) * (A + s) -> approx (n + m) t Y A (s + s').
Proof.
  intros (H1 & H2 & H3) H4 H5 HB. pose proof (gam_pos n). pose proof (gam_pos m). pose proof (Rabs_pos Y).
  split; [|split; lra].
  replace (t - Y) with ((t - y) + (y - Y)) by ring. eapply Rle_trans; [apply Rabs_triang|].
  assert (HB' : gam m * B <= gam m * ((1 + gam n) * (A + s))) by (apply Rmult_le_compat_l; lra).
  assert (E : gam (n + m) = (1 + gam n) * (1 + gam m) - 1) by (pose proof (gam_plus n m); lra).
  rewrite E.
  assert (s' * (1 + gam m) <= s' * ((1 + gam n) * (1 + gam m))).
  { apply Rmult_le_compat_l; [lra|]. rewrite <- (Rmult_1_l (1 + gam m)) at 1. apply Rmult_le_compat_r; lra. }
  replace (((1 + gam n) * (1 + gam m) - 1) * A + (s + s') * (1 + ((1 + gam n) * (1 + gam m) - 1)))
    with (gam m * ((1 + gam n) * (A + s)) + (gam n * A + s * (1 + gam n)) + s' * ((1 + gam n) * (1 + gam m))) by ring.
  lra.
Qed.
Lemma approx_lin n (c f F A s : nat -> R) l : (forall i, In i l -> approx n (f i) (F i) (A i) (s i)) ->
  approx n (Lsum (map (fun i => c i * f i) l)) (Lsum (map (fun i => c i * F i) l))
    (Lsum (map (fun i => Rabs (c i) * A i) l)) (Lsum (map (fun i => Rabs (c i) * s i) l)).
Proof.
  induction l as [|a l IH]; intros H.
  - unfold approx, Lsum. cbn. rewrite Rminus_0_r, Rabs_R0. pose proof (gam_pos n). repeat split; nra.
  - destruct (H a (or_introl eq_refl)) as (H1 & H2 & H3).
    destruct IH as (I1 & I2 & I3); [intros i Hi; apply H; now right|].
    unfold Lsum in *. cbn [map fold_right]. set (X := fold_right Rplus 0 (map (fun i => c i * f i) l)) in *. set (Y := fold_right Rplus 0 (map (fun i => c i * F i) l)) in *.
    set (AA := fold_right Rplus 0 (map (fun i => Rabs (c i) * A i) l)) in *. set (SS := fold_right Rplus 0 (map (fun i => Rabs (c i) * s i) l)) in *.
    pose proof (Rabs_pos (c a)). split; [|split].
    + replace (c a * f a + X - (c a * F a + Y)) with (c a * (f a - F a) + (X - Y)) by ring.
      eapply Rle_trans; [apply Rabs_triang|]. rewrite Rabs_mult.
      assert (Rabs (c a) * Rabs (f a - F a) <= Rabs (c a) * (gam n * A a + s a * (1 + gam n))) by (apply Rmult_le_compat_l; lra).
      lra.
    + eapply Rle_trans; [apply Rabs_triang|]. rewrite Rabs_mult.
      assert (Rabs (c a) * Rabs (F a) <= Rabs (c a) * A a) by (apply Rmult_le_compat_l; lra). lra.
    + assert (0 <= Rabs (c a) * s a) by (apply Rmult_le_pos; lra). lra.
Qed.

Lemma Labs_lin n (c f F A s : nat -> R) l : (forall i, In i l -> approx n (f i) (F i) (A i) (s i)) ->
  Labs (map (fun i => c i * f i) l) <=
  (1 + gam n) * (Lsum (map (fun i => Rabs (c i) * A i) l) + Lsum (map (fun i => Rabs (c i) * s i) l)).
Proof.
  unfold Labs. induction l as [|a l IH]; intros H; unfold Lsum in *; cbn [map fold_right]; [lra|].
  specialize (IH (fun i Hi => H i (or_intror Hi))). pose proof (approx_size _ _ _ _ _ (H a (or_introl eq_refl))) as Ha.
  rewrite Rabs_mult. pose proof (Rabs_pos (c a)).
  assert (Rabs (c a) * Rabs (f a) <= Rabs (c a) * ((1 + gam n) * (A a + s a))) by (apply Rmult_le_compat_l; lra). lra.
Qed.

Lemma neps_fin : isfin (neps : spec_float) /\ V neps = 2 * u64.
Proof.
  assert (E : (neps : spec_float) = S754_finite false 4503599627370496 (-104)) by (vm_compute; reflexivity).
  rewrite E. split; [split; vm_compute; reflexivity|].
  unfold V, SF2R, F2R. cbn [Fnum Fexp cond_Zopp]. unfold u64. change 2 with (bpow radix2 1). rewrite <- bpow_plus.
  change (IZR 4503599627370496) with (bpow radix2 52). rewrite <- bpow_plus. reflexivity.
Qed.
Lemma fin_bound x : isfin x -> Rabs (V x) < bpow radix2 1024.
Proof. intros F. destruct (to_B _ F) as (a & -> & Fa & Ea). rewrite Ea. apply abs_B2R_lt_emax. Qed.

(** the product with Rbs, after small entries have been set to zero *)
Lemma clean_err m y B t ref : valid t -> isfin ref -> (isfin t -> Rabs (V t - y) <= gam m * B + INR m * eta64 * (1 + gam m)) ->
  Rabs (V ref - B) <= gam m * B + INR m * eta64 * (1 + gam m) -> 0 <= B -> isfin (clean t ref) ->
  Rabs (V (clean t ref) - y) <= gam (m + 3) * B + (INR m + 1) * eta64 * (1 + gam (m + 3)).
Proof.
  intros Vt Fr Ht Hr HB Fc.
  pose proof (gam_pos m). pose proof (gam_mono m (m + 3) ltac:(lia)). pose proof (pos_INR m). pose proof eta64_pos. pose proof u64_pos.
  assert (M : 0 <= INR m * eta64) by nra.
  unfold clean in *. destruct (nltb (nabs t) (nmul ref neps)) eqn:E.
  - destruct neps_fin as [Fe Ve].
    assert (Fp : isfin (nmul ref neps) /\ V (nmul ref neps) = rnd (V ref * V neps)).
    { apply fmul; auto. rewrite Ve, Rabs_mult. pose proof (fin_bound _ Fr).
      rewrite (Rabs_pos_eq (2 * u64)) by lra.
      replace (bpow radix2 1023) with (bpow radix2 1024 * bpow radix2 (-1)) by (rewrite <- bpow_plus; reflexivity).
      apply Rmult_le_compat; [apply Rabs_pos|lra|lra|].
      replace (2 * u64) with (bpow radix2 (-52)) by (unfold u64; change 2 with (bpow radix2 1); rewrite <- bpow_plus; reflexivity).
      apply bpow_le. lia. }
    destruct Fp as [Fp Ep]. apply below_tol in E; [|exact Vt|exact Fp]. destruct E as [Ft E]. specialize (Ht Ft).
    rewrite Ep, Ve in E. destruct (rnd_err (V ref * (2 * u64))) as (dd & e & Hd & He & Er). rewrite Er in E.
    assert (Z0 : V nzero = 0) by reflexivity. rewrite Z0.
    assert (R1 : Rabs (V ref) <= (1 + gam m) * (B + INR m * eta64)).
    { replace (V ref) with ((V ref - B) + B) by ring. eapply Rle_trans; [apply Rabs_triang|]. rewrite (Rabs_pos_eq B) by lra. lra. }
    assert (R2 : V ref * (2 * u64) * (1 + dd) + e <= Rabs (V ref) * (2 * u64 * (1 + u64)) + eta64).
    { assert (V ref * (2 * u64) * (1 + dd) <= Rabs (V ref) * (2 * u64 * (1 + u64))).
      { eapply Rle_trans; [apply RRle_abs|]. rewrite !Rabs_mult, Rmult_assoc. apply Rmult_le_compat_l; [apply Rabs_pos|].
        rewrite (Rabs_pos_eq 2), (Rabs_pos_eq u64) by lra. apply Rmult_le_compat_l; [lra|].
        eapply Rle_trans; [apply Rabs_triang|]. rewrite Rabs_R1. lra. }
      pose proof (RRle_abs e). lra. }
    assert (R3 : Rabs (V ref) * (2 * u64 * (1 + u64)) <= (1 + gam m) * (B + INR m * eta64) * (2 * u64 * (1 + u64))).
    { apply Rmult_le_compat_r; [|exact R1]. nra. }
    assert (EP : 1 + gam (m + 3) = (1 + gam m) * (1 + u64) ^ 3) by (rewrite gam_plus, (pow_gam 3); ring).
    set (q := (1 + u64) ^ 3) in *. assert (Hq : 1 + 2 * u64 * (1 + u64) <= q) by (unfold q; cbn; nra).
    replace (gam (m + 3)) with ((1 + gam m) * q - 1) by lra.
    replace (1 + ((1 + gam m) * q - 1)) with ((1 + gam m) * q) by ring.
    replace (0 - y) with ((V t - y) - V t) by ring. eapply Rle_trans; [apply Rabs_triang|]. rewrite Rabs_Ropp.
    assert (K1 : (1 + gam m) * (B + INR m * eta64) * (1 + 2 * u64 * (1 + u64)) <= (1 + gam m) * (B + INR m * eta64) * q).
    { apply Rmult_le_compat_l; [nra|exact Hq]. }
    assert (K2 : eta64 <= eta64 * ((1 + gam m) * q)).
    { rewrite <- (Rmult_1_r eta64) at 1. apply Rmult_le_compat_l; [lra|]. nra. }
    replace (((1 + gam m) * q - 1) * B + (INR m + 1) * eta64 * ((1 + gam m) * q))
      with ((1 + gam m) * (B + INR m * eta64) * q - B + eta64 * ((1 + gam m) * q)) by ring.
    replace ((1 + gam m) * (B + INR m * eta64) * (1 + 2 * u64 * (1 + u64)))
      with ((1 + gam m) * (B + INR m * eta64) + (1 + gam m) * (B + INR m * eta64) * (2 * u64 * (1 + u64))) in K1 by ring.
    lra.
  - specialize (Ht Fc). eapply Rle_trans; [exact Ht|]. apply Rplus_le_compat; [apply Rmult_le_compat_r; lra|].
    apply Rmult_le_compat; [nra|lra|nra|lra].
Qed.

(* ---------- sums ---------- *)
Lemma Ls_cons a l : Lsum (a :: l) = a + Lsum l. Proof. reflexivity. Qed.
Lemma Ls_add {A} (f g : A -> R) l : Lsum (map (fun i => f i + g i) l) = Lsum (map f l) + Lsum (map g l).
Proof. induction l as [|a l IH]; cbn [map]; [unfold Lsum; cbn; ring|]. rewrite !Ls_cons, IH. ring. Qed.
Lemma Ls_scal {A} c (f : A -> R) l : Lsum (map (fun i => c * f i) l) = c * Lsum (map f l).
Proof. induction l as [|a l IH]; cbn [map]; [unfold Lsum; cbn; ring|]. rewrite !Ls_cons, IH. ring. Qed.
Lemma Ls_ext {A} (f g : A -> R) l : (forall i, In i l -> f i = g i) -> Lsum (map f l) = Lsum (map g l).
Proof. intros H. f_equal. now apply map_ext_in. Qed.
Lemma Ls_zero {A} (l : list A) : Lsum (map (fun _ => 0) l) = 0.
Proof. induction l as [|a l IH]; cbn [map]; [reflexivity|]. rewrite Ls_cons, IH. ring. Qed.
Lemma Ls_swap {A B} (f : A -> B -> R) l m :
  Lsum (map (fun i => Lsum (map (f i) m)) l) = Lsum (map (fun j => Lsum (map (fun i => f i j) l)) m).
Proof.
  induction l as [|a l IH]; cbn [map].
  - change (Lsum []) with 0. symmetry. apply Ls_zero.
  - rewrite Ls_cons, IH. change (Lsum (map (f a) m) + Lsum (map (fun j => Lsum (map (fun i => f i j) l)) m) =
      Lsum (map (fun j => f a j + Lsum (map (fun i => f i j) l)) m)). now rewrite Ls_add.
Qed.
Lemma Ls_le_abs {A} (f g : A -> R) l : (forall i, In i l -> Rabs (f i) <= g i) -> Rabs (Lsum (map f l)) <= Lsum (map g l).
Proof.
  induction l as [|a l IH]; cbn [map]; intros H; [unfold Lsum; cbn; rewrite Rabs_R0; lra|]. rewrite !Ls_cons.
  eapply Rle_trans; [apply Rabs_triang|]. apply Rplus_le_compat; [apply H; now left|]. apply IH. intros i Hi. apply H. now right.
Qed.
Lemma Ls_nth (f : nat -> R) l : Lsum (map f l) = sumn (length l) (fun j => f (nth j l 0%nat)).
Proof.
  unfold sumn. induction l as [|a l IH]; [reflexivity|]. cbn [length seq map nth]. rewrite !Ls_cons, IH.
  rewrite <- seq_shift, map_map. reflexivity.
Qed.
Lemma Ls_pick n i (f : nat -> R) : (i < n)%nat -> sumn n (fun j => (if Nat.eqb i j then 1 else 0) * f j) = f i.
Proof.
  intros Hi. unfold sumn. rewrite <- (firstn_skipn (S i) (seq 0 n)). revert f Hi. 
  assert (G : forall m k (f : nat -> R), (i < k)%nat -> Lsum (map (fun j => (if Nat.eqb i j then 1 else 0) * f j) (seq k m)) = 0).
  { induction m as [|m IH]; intros k f Hk; [reflexivity|]. cbn [seq map]. rewrite Ls_cons, IH by lia.
    destruct (Nat.eqb_spec i k); [lia|]. ring. }
  assert (G2 : forall m k (f : nat -> R), (k <= i < k + m)%nat -> Lsum (map (fun j => (if Nat.eqb i j then 1 else 0) * f j) (seq k m)) = f i).
  { induction m as [|m IH]; intros k f Hk; [lia|]. cbn [seq map]. rewrite Ls_cons.
    destruct (Nat.eqb_spec i k) as [->|N]; [rewrite G by lia; ring|]. rewrite IH by lia. ring. }
  intros f Hi. rewrite firstn_skipn. apply G2. lia.
Qed.
Lemma Labs_map {A} (f : A -> R) l : Labs (map f l) = Lsum (map (fun i => Rabs (f i)) l).
Proof. unfold Labs. now rewrite map_map. Qed.

(* ---------- the canonical residual ---------- *)
(** the terms, as real numbers *)
Definition starR (d : fdata) (l : nat) : list R :=
  if Nat.ltb l (fny d)
  then V (fb d l) :: map (fun j => - (V (fWx d l j) * V (fx d j))) (fju d)
  else map (fun j => V (fWx d l j) * V (fx d j)) (fjs d) ++ map (fun k => V (fWp d l k) * V (fp d k)) (seq 0 (fnp d)) ++
       [- V (fh d (l - fny d)%nat)].
Definition subR (d : fdata) (i : nat) : list R :=
  V (fx d (nth i (fjbs d) 0%nat)) ::
  map (fun j => V (fS d i j) * V (fx d (nth j (fjns d) 0%nat))) (seq 0 (fnns d)) ++
  map (fun k => V (fSp d i k) * V (fp d k)) (seq 0 (fnp d)).

Section Main.
Variables (d : fdata) (r : fresidual).
Hypothesis Nb : numbers d.
Hypothesis Pt : partitioned d.
Hypothesis C : computed d r.
Hypothesis NO : no_overflow d r.

Definition can (i : nat) : R := sumn (fnw d) (fun l => V (fR d i l) * Lsum (starR d l)) - Lsum (subR d i).
Let n1 := (fnx d + fnp d + 1)%nat.

Lemma num_fin : (forall l, isfin (fb d l)) /\ (forall l, isfin (fh d l)) /\ (forall l j, isfin (fWx d l j)) /\
  (forall l k, isfin (fWp d l k)) /\ (forall j, isfin (fx d j)) /\ (forall k, isfin (fp d k)) /\
  (forall i j, isfin (fR d i j)) /\ (forall i j, isfin (fS d i j)) /\ (forall i k, isfin (fSp d i k)).
Proof. unfold numbers in Nb. tauto. Qed.
Lemma star_real l : star_terms d l = map XF (starR d l).
Proof.
  destruct num_fin as (Fb & Fh & FW & FWp & Fx & Fp & _). unfold star_terms, starR. destruct (Nat.ltb _ _).
  - cbn [map]. rewrite (xof_fin _ (Fb l)). f_equal. rewrite map_map. apply map_ext. intros j. now rewrite prod_fin.
  - rewrite !map_app, !map_map. f_equal; [|f_equal].
    + apply map_ext. intros j. now apply prod_fin.
    + apply map_ext. intros j. now apply prod_fin.
    + cbn [map]. now rewrite (xof_fin _ (Fh _)).
Qed.
Lemma sub_real i : sub_terms d i = map XF (subR d i).
Proof.
  destruct num_fin as (Fb & Fh & FW & FWp & Fx & Fp & FR & FS & FSp). unfold sub_terms, subR. cbn [map].
  rewrite (xof_fin _ (Fx _)). f_equal. rewrite map_app, !map_map. f_equal; apply map_ext; intros j; now apply prod_fin.
Qed.
Lemma lens : (length (fjs d) + length (fju d) = fnx d)%nat.
Proof. destruct Pt as [P _]. apply Permutation_length in P. rewrite app_length, seq_length in P. exact P. Qed.
Lemma star_len l : (length (starR d l) <= n1)%nat.
Proof.
  pose proof lens. unfold starR, n1. destruct (Nat.ltb _ _).
  - cbn [length]. rewrite map_length. lia.
  - rewrite !app_length, !map_length, seq_length. cbn [length]. lia.
Qed.
Lemma star_labs l : Labs (starR d l) = star_mag d l.
Proof.
  unfold starR, star_mag. destruct (Nat.ltb _ _).
  - unfold Labs at 1. cbn [map]. rewrite Ls_cons, map_map. f_equal. apply Ls_ext. intros j _. apply Rabs_Ropp.
  - rewrite !Labs_app, !Labs_map. unfold sumn. rewrite Rplus_assoc. f_equal. f_equal.
    unfold Labs, Lsum. cbn. rewrite Rabs_Ropp. ring.
Qed.
Lemma sub_labs i : Labs (subR d i) = Rabs (V (fx d (nth i (fjbs d) 0%nat))) +
  sumn (fnns d) (fun j => Rabs (V (fS d i j) * V (fx d (nth j (fjns d) 0%nat)))) +
  sumn (fnp d) (fun k => Rabs (V (fSp d i k) * V (fp d k))).
Proof.
  unfold subR. unfold Labs at 1. cbn [map]. rewrite Ls_cons. fold (Labs (map (fun j => V (fS d i j) * V (fx d (nth j (fjns d) 0%nat))) (seq 0 (fnns d)) ++
    map (fun k => V (fSp d i k) * V (fp d k)) (seq 0 (fnp d)))). rewrite Labs_app, !Labs_map. unfold sumn. ring.
Qed.
Lemma sub_len i : (length (subR d i) <= fnx d + fnp d + 1)%nat.
Proof. pose proof lens. unfold subR, fnns. cbn [length]. rewrite app_length, !map_length, !seq_length. lia. Qed.

Lemma star_ok l : (l < fnw d)%nat -> isfin (ra_star r l) ->
  approx n1 (V (ra_star r l)) (Lsum (starR d l)) (star_mag d l) (INR n1 * eta64).
Proof.
  intros Hl Fl. destruct C as (_ & _ & C3 & _). specialize (C3 l Hl). rewrite star_real in C3.
  eapply approx_mono; [apply (star_len l)| | |apply approx_eval; [exact C3|exact Fl]].
  - rewrite star_labs. lra.
  - apply Rmult_le_compat_r; [pose proof eta64_pos; lra|]. apply le_INR, star_len.
Qed.

Lemma canon_ok i : (i < fnbs d)%nat -> isfin (ra_wbs r i) ->
  approx (terms d) (V (ra_wbs r i)) (can i) (canon_mag d i) (INR (terms d) * eta64 * (1 + Rmag d i)).
Proof.
  intros Hi Fw. destruct C as (_ & _ & C3 & C4 & C5). destruct num_fin as (_ & _ & _ & _ & _ & _ & FR & _).
  pose proof eta64_pos as He.
  destruct (C4 i Hi) as (t & Et & Er & Ec). specialize (C5 i Hi).
  assert (Vt : valid t) by (eapply evalsum_valid; exact Et).
  assert (Fr := NO i Hi).
  assert (Va : forall l, (l < fnw d)%nat -> valid (ra_star r l)) by (intros l Hl; eapply evalsum_valid; apply (C3 l Hl)).
  (* everything the finite result depends on is finite *)
  assert (Fa : forall l, (l < fnw d)%nat -> isfin (ra_star r l)).
  { intros l Hl. apply fin_abs. destruct (eval_fin _ _ Er Fr (prod (nabs (fR d i l)) (nabs (ra_star r l)))) as [z Hz].
    - apply (in_map (fun l => prod (nabs (fR d i l)) (nabs (ra_star r l)))), in_seq. lia.
    - eapply prod_XF; [apply valid_abs, Va, Hl|apply fin_abs', FR|exact Hz]. }
  assert (Fc : isfin (ra_c r i)).
  { destruct (eval_fin _ _ C5 Fw (xof (ra_c r i))) as [z Hz]; [now left|]. eapply xof_XF; [|exact Hz].
    rewrite Ec. unfold clean. destruct (nltb _ _); [reflexivity|exact Vt]. }
  set (ls := seq 0 (fnw d)) in *.
  set (Ra := map (fun l => V (fR d i l) * V (ra_star r l)) ls).
  assert (LR : length Ra = fnw d) by (unfold Ra, ls; now rewrite map_length, seq_length).
  assert (Et' : evalsum (map XF Ra) t).
  { replace (map XF Ra) with (map (fun l => prod (fR d i l) (ra_star r l)) ls); [exact Et|]. unfold Ra. rewrite map_map.
    apply map_ext_in. intros l Hl. apply in_seq in Hl. apply prod_fin; [apply FR|apply Fa; lia]. }
  assert (Er' : evalsum (map XF (map Rabs Ra)) (ra_ref r i)).
  { replace (map XF (map Rabs Ra)) with (map (fun l => prod (nabs (fR d i l)) (nabs (ra_star r l))) ls); [exact Er|]. unfold Ra. rewrite !map_map.
    apply map_ext_in. intros l Hl. apply in_seq in Hl. rewrite Rabs_mult, <- !V_abs by (try apply FR; apply Fa; lia).
    apply prod_fin; apply fin_abs'; [apply FR|apply Fa; lia]. }
  assert (AS : forall l, In l ls -> approx n1 (V (ra_star r l)) (Lsum (starR d l)) (star_mag d l) (INR n1 * eta64)).
  { intros l Hl. apply in_seq in Hl. apply star_ok; [lia|]. apply Fa. lia. }
  pose proof (approx_lin n1 (fun l => V (fR d i l)) (fun l => V (ra_star r l)) (fun l => Lsum (starR d l)) (star_mag d) (fun _ => INR n1 * eta64) ls AS) as A1.
  pose proof (Labs_lin n1 (fun l => V (fR d i l)) (fun l => V (ra_star r l)) (fun l => Lsum (starR d l)) (star_mag d) (fun _ => INR n1 * eta64) ls AS) as B1.
  cbv beta in A1, B1. fold Ra in A1, B1.
  set (M1 := Lsum (map (fun l => Rabs (V (fR d i l)) * star_mag d l) ls)) in *.
  set (S1 := Lsum (map (fun l => Rabs (V (fR d i l)) * (INR n1 * eta64)) ls)) in *.
  set (Y1 := Lsum (map (fun l => V (fR d i l) * Lsum (starR d l)) ls)) in *.
  assert (HS1 : S1 = Rmag d i * (INR n1 * eta64)).
  { unfold S1, Rmag, sumn. fold ls. rewrite (Ls_ext _ (fun l => (INR n1 * eta64) * Rabs (V (fR d i l)))) by (intros; ring).
    rewrite Ls_scal. ring. }
  (* the product with R *)
  assert (AC : approx (n1 + (fnw d + 3)) (V (ra_c r i)) Y1 M1 (S1 + (INR (fnw d) + 1) * eta64)).
  { eapply approx_comp; [exact A1| | |exact B1].
    - rewrite Ec. rewrite Ec in Fc. apply clean_err; auto.
      + intros Ft. destruct (approx_eval _ _ Et' Ft) as (Q & _). rewrite LR in Q. exact Q.
      + destruct (approx_eval _ _ Er' Fr) as (Q & _). rewrite map_length, LR in Q. fold (Labs Ra) in Q.
        replace (Labs (map Rabs Ra)) with (Labs Ra) in Q; [exact Q|]. unfold Labs. rewrite map_map. f_equal. apply map_ext.
        intros z. now rewrite Rabs_Rabsolu.
      + apply Labs_pos.
    - pose proof (pos_INR (fnw d)). nra. }
  (* the last sum *)
  assert (C5' : evalsum (map XF (V (ra_c r i) :: map Ropp (subR d i))) (ra_wbs r i)).
  { cbn [map]. rewrite <- (xof_fin _ Fc). rewrite sub_real in C5. rewrite map_map in *. exact C5. }
  destruct (approx_eval _ _ C5' Fw) as (E5 & _). cbn [length] in E5. rewrite map_length in E5. rewrite Ls_cons, Lsum_opp in E5.
  unfold Labs in E5. cbn [map] in E5. rewrite Ls_cons in E5. fold (Labs (map Ropp (subR d i))) in E5. rewrite Labs_opp in E5.
  set (X := Lsum (subR d i)) in *. set (LX := Labs (subR d i)) in *. set (k := S (length (subR d i))) in *.
  assert (Hk : (k <= fnx d + fnp d + 2)%nat) by (pose proof (sub_len i); unfold k; lia).
  set (n := (n1 + (fnw d + 3))%nat) in *. set (s := S1 + (INR (fnw d) + 1) * eta64) in *.
  pose proof (gam_pos n) as Gn. assert (LX0 : 0 <= LX) by apply Labs_pos.
  assert (AD : approx n (V (ra_c r i) - X) (Y1 - X) (M1 + LX) s).
  { destruct AC as (Q1 & Q2 & Q3). split; [|split; [|exact Q3]].
    - replace (V (ra_c r i) - X - (Y1 - X)) with (V (ra_c r i) - Y1) by ring. nra.
    - unfold Rminus. eapply Rle_trans; [apply Rabs_triang|]. rewrite Rabs_Ropp. pose proof (Lsum_abs (subR d i)). fold X LX in H. lra. }
  assert (AE : approx (n + k) (V (ra_wbs r i)) (Y1 - X) (M1 + LX) (s + INR k * eta64)).
  { eapply approx_comp; [exact AD|exact E5| |].
    - pose proof (pos_INR k). nra.
    - pose proof (approx_size _ _ _ _ _ AC) as Q. nra. }
  eapply approx_mono; [| | |exact AE].
  - unfold n, n1, terms. lia.
  - unfold canon_mag, M1, LX, sumn. rewrite sub_labs. unfold sumn. fold ls. lra.
  - unfold s. rewrite HS1.
    assert (R0' : 0 <= Rmag d i). { unfold Rmag, sumn. rewrite <- (Labs_map (fun l => V (fR d i l))). apply Labs_pos. }
    assert (I1 : INR n1 <= INR (terms d)) by (apply le_INR; unfold n1, terms; lia).
    assert (I2 : INR (fnw d) + 1 + INR k <= INR (terms d)).
    { rewrite <- S_INR, <- plus_INR. apply le_INR. unfold terms. lia. }
    assert (Rmag d i * (INR n1 * eta64) <= Rmag d i * (INR (terms d) * eta64)).
    { apply Rmult_le_compat_l; [exact R0'|]. apply Rmult_le_compat_r; lra. }
    assert ((INR (fnw d) + 1 + INR k) * eta64 <= INR (terms d) * eta64) by (apply Rmult_le_compat_r; lra).
    lra.
Qed.

(* ---------- from the canonical residual to the residuals of the constraints ---------- *)
Lemma split_js (f : nat -> R) : Lsum (map f (fjs d)) =
  sumn (fnbs d) (fun j => f (nth j (fjbs d) 0%nat)) + sumn (fnns d) (fun j => f (nth j (fjns d) 0%nat)).
Proof.
  destruct Pt as (_ & Hb & _). rewrite <- (firstn_skipn (fnbs d) (fjs d)) at 1. rewrite map_app, Lsum_app.
  fold (fjbs d) (fjns d). rewrite !Ls_nth. f_equal.
  - f_equal. unfold fjbs. rewrite firstn_length. lia.
  - f_equal. unfold fjns, fnns. apply skipn_length.
Qed.
Lemma split_x (f : nat -> R) : sumn (fnx d) f = Lsum (map f (fjs d)) + Lsum (map f (fju d)).
Proof.
  destruct Pt as (P & _). unfold sumn. rewrite <- Lsum_app, <- map_app. apply Lsum_perm, Permutation_map. now apply Permutation_sym.
Qed.
Lemma star_cres l : (l < fnw d)%nat -> Lsum (starR d l) = cres d l +
  Lsum (map (fun j => V (fWx d l j) * V (fx d j)) (fjs d)) + sumn (fnp d) (fun k => V (fWp d l k) * V (fp d k)).
Proof.
  intros Hl. unfold starR, cres. destruct (Nat.ltb _ _).
  - rewrite Ls_cons, <- (map_map (fun j => V (fWx d l j) * V (fx d j)) Ropp), Lsum_opp, split_x. ring.
  - rewrite !Lsum_app. unfold sumn. unfold Lsum at 3. cbn. ring.
Qed.
Lemma can_cres i : (i < fnbs d)%nat -> can i = Rcres d i +
  (sumn (fnbs d) (fun j => (RW d i (nth j (fjbs d) 0%nat) - (if Nat.eqb i j then 1 else 0)) * V (fx d (nth j (fjbs d) 0%nat))) +
   sumn (fnns d) (fun j => (RW d i (nth j (fjns d) 0%nat) - V (fS d i j)) * V (fx d (nth j (fjns d) 0%nat))) +
   sumn (fnp d) (fun k => (RWp d i k - V (fSp d i k)) * V (fp d k))).
Proof.
  intros Hi. unfold can.
  assert (A : sumn (fnw d) (fun l => V (fR d i l) * Lsum (starR d l)) = Rcres d i +
    Lsum (map (fun j => RW d i j * V (fx d j)) (fjs d)) + sumn (fnp d) (fun k => RWp d i k * V (fp d k))).
  { unfold Rcres, RW, RWp, sumn.
    rewrite (Ls_ext (fun l => V (fR d i l) * Lsum (starR d l)) (fun l => V (fR d i l) * cres d l +
      (Lsum (map (fun j => V (fR d i l) * V (fWx d l j) * V (fx d j)) (fjs d)) +
       Lsum (map (fun k => V (fR d i l) * V (fWp d l k) * V (fp d k)) (seq 0 (fnp d)))))).
    2: { intros l Hl. apply in_seq in Hl. rewrite star_cres by lia. unfold sumn.
         rewrite (Ls_ext (fun j => V (fR d i l) * V (fWx d l j) * V (fx d j)) (fun j => V (fR d i l) * (V (fWx d l j) * V (fx d j)))) by (intros; ring).
         rewrite (Ls_ext (fun k => V (fR d i l) * V (fWp d l k) * V (fp d k)) (fun k => V (fR d i l) * (V (fWp d l k) * V (fp d k)))) by (intros; ring).
         rewrite !Ls_scal. ring. }
    rewrite !Ls_add.
    rewrite (Ls_swap (fun l j => V (fR d i l) * V (fWx d l j) * V (fx d j))), (Ls_swap (fun l k => V (fR d i l) * V (fWp d l k) * V (fp d k))).
    rewrite (Ls_ext (fun j => Lsum (map (fun l => V (fR d i l) * V (fWx d l j) * V (fx d j)) (seq 0 (fnw d))))
      (fun j => Lsum (map (fun l => V (fR d i l) * V (fWx d l j)) (seq 0 (fnw d))) * V (fx d j))).
    2: { intros j _. rewrite (Ls_ext _ (fun l => V (fx d j) * (V (fR d i l) * V (fWx d l j)))) by (intros; ring). rewrite Ls_scal. ring. }
    rewrite (Ls_ext (fun k => Lsum (map (fun l => V (fR d i l) * V (fWp d l k) * V (fp d k)) (seq 0 (fnw d))))
      (fun k => Lsum (map (fun l => V (fR d i l) * V (fWp d l k)) (seq 0 (fnw d))) * V (fp d k))).
    2: { intros j _. rewrite (Ls_ext _ (fun l => V (fp d j) * (V (fR d i l) * V (fWp d l j)))) by (intros; ring). rewrite Ls_scal. ring. }
    ring. }
  rewrite A, split_js. unfold subR. rewrite Ls_cons, Lsum_app.
  pose proof (Ls_pick (fnbs d) i (fun j => V (fx d (nth j (fjbs d) 0%nat))) Hi) as Pk. cbv beta in Pk. rewrite <- Pk.
  unfold sumn in *.
  rewrite (Ls_ext (fun j => (RW d i (nth j (fjbs d) 0%nat) - (if Nat.eqb i j then 1 else 0)) * V (fx d (nth j (fjbs d) 0%nat)))
    (fun j => RW d i (nth j (fjbs d) 0%nat) * V (fx d (nth j (fjbs d) 0%nat)) + (-1) * ((if Nat.eqb i j then 1 else 0) * V (fx d (nth j (fjbs d) 0%nat))))) by (intros; ring).
  rewrite (Ls_ext (fun j => (RW d i (nth j (fjns d) 0%nat) - V (fS d i j)) * V (fx d (nth j (fjns d) 0%nat)))
    (fun j => RW d i (nth j (fjns d) 0%nat) * V (fx d (nth j (fjns d) 0%nat)) + (-1) * (V (fS d i j) * V (fx d (nth j (fjns d) 0%nat))))) by (intros; ring).
  rewrite (Ls_ext (fun k => (RWp d i k - V (fSp d i k)) * V (fp d k))
    (fun k => RWp d i k * V (fp d k) + (-1) * (V (fSp d i k) * V (fp d k)))) by (intros; ring).
  rewrite !Ls_add, !Ls_scal. ring.
Qed.
Lemma defect_le i : (i < fnbs d)%nat -> Rabs (Rcres d i) <= Rabs (can i) + defect d i.
Proof.
  intros Hi. pose proof (can_cres i Hi) as Q.
  set (a := sumn (fnbs d) (fun j => (RW d i (nth j (fjbs d) 0%nat) - (if Nat.eqb i j then 1 else 0)) * V (fx d (nth j (fjbs d) 0%nat)))) in *.
  set (b := sumn (fnns d) (fun j => (RW d i (nth j (fjns d) 0%nat) - V (fS d i j)) * V (fx d (nth j (fjns d) 0%nat)))) in *.
  set (c := sumn (fnp d) (fun k => (RWp d i k - V (fSp d i k)) * V (fp d k))) in *.
  assert (Rabs a + Rabs b + Rabs c <= defect d i).
  { unfold defect. apply Rplus_le_compat; [apply Rplus_le_compat|]; apply Ls_le_abs; intros j _; rewrite Rabs_mult; lra. }
  replace (Rcres d i) with (can i - (a + b + c)) by lra. unfold Rminus. eapply Rle_trans; [apply Rabs_triang|]. rewrite Rabs_Ropp.
  pose proof (Rabs_triang (a + b) c). pose proof (Rabs_triang a b). lra.
Qed.
End Main.

(* ---------- left-to-right evaluation ---------- *)
Lemma lsum_eval ts vs : Forall2 (fun t v => evalsum [t] v) ts vs -> evalsum ts (lsum vs).
Proof.
  assert (G : forall ts vs l0 acc, evalsum l0 acc -> Forall2 (fun t v => evalsum [t] v) ts vs -> evalsum (l0 ++ ts) (fold_left nadd vs acc)).
  { intros ts' vs' l0 acc H F. revert l0 acc H. induction F as [|t v ts' vs' Hv F IH]; intros l0 acc H; [now rewrite app_nil_r|].
    cbn [fold_left]. change (t :: ts') with ([t] ++ ts'). rewrite app_assoc. apply IH. now constructor. }
  intros F. apply (G ts vs [] nzero); [constructor|exact F].
Qed.
Lemma F2_map {A} (P : xreal -> spec_float -> Prop) (f : A -> xreal) (g : A -> spec_float) l :
  (forall i, In i l -> P (f i) (g i)) -> Forall2 P (map f l) (map g l).
Proof. induction l as [|a l IH]; cbn [map]; intros H; constructor; [apply H; now left|]. apply IH. intros i Hi. apply H. now right. Qed.
Lemma F2_app (P : xreal -> spec_float -> Prop) a b c e : Forall2 P a b -> Forall2 P c e -> Forall2 P (a ++ c) (b ++ e).
Proof. induction 1; cbn [app]; [auto|]. constructor; auto. Qed.
Lemma ev_mul a b : valid a -> valid b -> evalsum [prod a b] (nmul a b).
Proof. intros. now constructor. Qed.
Lemma ev_opp t v : evalsum [t] v -> evalsum [nopp t] (nopp v).
Proof. intros H. exact (es_opp _ _ H). Qed.

Lemma ltr_computed d : numbers d -> computed d (ltr d).
Proof.
  intros (Fg & Fv & Fb & Fh & FW & FWp & Fx & Fp & Fw & FR & FS & FSp & Fl & Fu).
  assert (St : computed_star d (ltr_star d)).
  { intros l Hl. unfold ltr_star, star_terms. destruct (Nat.ltb _ _).
    - apply lsum_eval. constructor; [constructor; apply Fb|]. apply F2_map. intros j _. apply ev_opp, ev_mul; [apply FW|apply Fx].
    - apply lsum_eval. apply F2_app; [|apply F2_app].
      + apply F2_map. intros j _. apply ev_mul; [apply FW|apply Fx].
      + apply F2_map. intros j _. apply ev_mul; [apply FWp|apply Fp].
      + constructor; [|constructor]. apply ev_opp. constructor. apply Fh. }
  assert (Va : forall l, (l < fnw d)%nat -> valid (ltr_star d l)) by (intros l Hl; eapply evalsum_valid, St, Hl).
  assert (Vt : forall i, valid (lsum (map (fun l => nmul (fR d i l) (ltr_star d l)) (seq 0 (fnw d))))).
  { intros i. eapply evalsum_valid. apply lsum_eval. apply (F2_map _ (fun l => prod (fR d i l) (ltr_star d l))). intros l Hl. apply in_seq in Hl.
    apply ev_mul; [apply FR|apply Va; lia]. }
  split; [|split; [|split; [exact St|split]]].
  - intros i Hi. cbn [ltr ra_x]. split; intros Hu.
    + apply contains_In in Hu. now rewrite Hu.
    + apply contains_false in Hu. rewrite Hu. eexists. split; [|reflexivity]. apply lsum_eval.
      constructor; [constructor; apply Fg|]. apply F2_map. intros l _. apply ev_mul; [apply FW|apply Fw].
  - intros k Hk. reflexivity.
  - intros i Hi. cbn [ltr ra_star ra_ref ra_c]. eexists. split; [|split; [|reflexivity]].
    + apply lsum_eval, F2_map. intros l Hl. apply in_seq in Hl. apply ev_mul; [apply FR|apply Va; lia].
    + apply lsum_eval, F2_map. intros l Hl. apply in_seq in Hl. apply ev_mul; apply valid_abs; [apply FR|apply Va; lia].
  - intros i Hi. cbn [ltr ra_c ra_wbs]. apply lsum_eval. constructor.
    + constructor. unfold ltr_c, clean. destruct (nltb _ _); [reflexivity|]. apply Vt.
    + unfold sub_terms. cbn [map]. constructor; [apply ev_opp; constructor; apply Fx|]. rewrite map_app, !map_map. apply F2_app.
      * apply F2_map. intros j _. apply ev_opp, ev_mul; [apply FS|apply Fx].
      * apply F2_map. intros j _. apply ev_opp, ev_mul; [apply FSp|apply Fp].
Qed.
