(** The error of a computed sum, for every order of evaluation. *)
From Coq Require Import Reals ZArith List Permutation Bool Lia Lra.
From Coq Require Import Floats.SpecFloat.
From Flocq Require Import Core BinarySingleNaN.
From Verif Require Import Num Round_spec Float_proofs Round_proofs FSum_model FSum_spec.
Import ListNotations.
Local Open Scope R_scope.
#[local] Existing Instance Hprec.
#[local] Existing Instance Hmax.

Lemma toBv x : valid x -> exists b : BF, x = B2SF b.
Proof. intros H. exists (SF2B x H). now rewrite B2SF_SF2B. Qed.
Lemma valid_B (b : BF) : valid (B2SF b). Proof. apply valid_binary_B2SF. Qed.

Lemma valid_add x y : valid x -> valid y -> valid (nadd x y).
Proof. intros H K. destruct (toBv _ H) as [a ->], (toBv _ K) as [b ->]. rewrite add_equiv. apply valid_B. Qed.
Lemma valid_sub x y : valid x -> valid y -> valid (nsub x y).
Proof. intros H K. destruct (toBv _ H) as [a ->], (toBv _ K) as [b ->]. rewrite sub_equiv. apply valid_B. Qed.
Lemma valid_mul x y : valid x -> valid y -> valid (nmul x y).
Proof. intros H K. destruct (toBv _ H) as [a ->], (toBv _ K) as [b ->]. rewrite mul_equiv. apply valid_B. Qed.
Lemma valid_opp x : valid x -> valid (nopp x).
Proof. intros H. now destruct x. Qed.
Lemma V_opp x : V (nopp x) = - V x.
Proof.
  destruct x as [b| | |b m e]; unfold V; cbn; try lra.
  destruct b; cbn; rewrite <- Float_prop.F2R_Zopp; reflexivity.
Qed.
Lemma fin_opp x : isfin (nopp x) -> isfin x.
Proof. intros [H F]. destruct x; try discriminate; split; auto. Qed.

Lemma isfin_B (b : BF) : isfin (B2SF b) <-> is_finite b = true.
Proof. split; [intros [_ F]; now destruct b|]. intros F. now apply of_B. Qed.

(** an operation with a finite result has finite operands and rounds the exact result *)
Lemma add_inv x y : valid x -> valid y -> isfin (nadd x y) -> isfin x /\ isfin y /\ V (nadd x y) = rnd (V x + V y).
Proof.
  intros H K. destruct (toBv _ H) as [a ->], (toBv _ K) as [b ->]. rewrite add_equiv. rewrite !isfin_B. intros F.
  assert (FA : is_finite a = true /\ is_finite b = true).
  { destruct a as [s| s | |s m e Hm], b as [t| t | |t m' e' Hm']; cbn in F; try discriminate; auto; destruct (Bool.eqb _ _); discriminate. }
  destruct FA as [Fa Fb]. split; [exact Fa|]. split; [exact Fb|].
  rewrite (proj2 (of_B _ F)), (proj2 (of_B _ Fa)), (proj2 (of_B _ Fb)).
  pose proof (Bplus_correct p64 e64 Hprec Hmax mode_NE a b Fa Fb) as C. revert C. case Rlt_bool.
  - intros (E & _). exact E.
  - intros (E & _). exfalso. assert (Q : isfin (B2SF (Bplus mode_NE a b))) by (apply of_B; exact F). rewrite E in Q. destruct Q as [_ Q].
    destruct (Bsign a); discriminate.
Qed.
Lemma sub_inv x y : valid x -> valid y -> isfin (nsub x y) -> isfin x /\ isfin y /\ V (nsub x y) = rnd (V x - V y).
Proof.
  intros H K. destruct (toBv _ H) as [a ->], (toBv _ K) as [b ->]. rewrite sub_equiv. rewrite !isfin_B. intros F.
  assert (FA : is_finite a = true /\ is_finite b = true).
  { destruct a as [s| s | |s m e Hm], b as [t| t | |t m' e' Hm']; cbn in F; try discriminate; auto; destruct (Bool.eqb _ _); discriminate. }
  destruct FA as [Fa Fb]. split; [exact Fa|]. split; [exact Fb|].
  rewrite (proj2 (of_B _ F)), (proj2 (of_B _ Fa)), (proj2 (of_B _ Fb)).
  pose proof (Bminus_correct p64 e64 Hprec Hmax mode_NE a b Fa Fb) as C. revert C. case Rlt_bool.
  - intros (E & _). exact E.
  - intros (E & _). exfalso. assert (Q : isfin (B2SF (Bminus mode_NE a b))) by (apply of_B; exact F). rewrite E in Q. destruct Q as [_ Q].
    destruct (Bsign a); discriminate.
Qed.
Lemma mul_inv x y : valid x -> valid y -> isfin (nmul x y) -> isfin x /\ isfin y /\ V (nmul x y) = rnd (V x * V y).
Proof.
  intros H K. destruct (toBv _ H) as [a ->], (toBv _ K) as [b ->]. rewrite mul_equiv. rewrite !isfin_B. intros F.
  assert (FA : is_finite a = true /\ is_finite b = true).
  { destruct a as [s| s | |s m e Hm], b as [t| t | |t m' e' Hm']; cbn in F; try discriminate; auto. }
  destruct FA as [Fa Fb]. split; [exact Fa|]. split; [exact Fb|].
  rewrite (proj2 (of_B _ F)), (proj2 (of_B _ Fa)), (proj2 (of_B _ Fb)).
  pose proof (Bmult_correct p64 e64 Hprec Hmax mode_NE a b) as C. revert C. case Rlt_bool.
  - intros (E & _). exact E.
  - intros E. exfalso. assert (Q : isfin (B2SF (Bmult mode_NE a b))) by (apply of_B; exact F). rewrite E in Q. destruct Q as [_ Q].
    destruct (xorb _ _); discriminate.
Qed.

(** the same relation on terms that are real numbers *)
Inductive evalR : list R -> spec_float -> Prop :=
| er_zero : evalR [] nzero
| er_val x : valid x -> evalR [V x] x
| er_mul a b : valid a -> valid b -> evalR [V a * V b] (nmul a b)
| er_fma a b l v r : evalR l v -> fused a b v r -> evalR (V a * V b :: l) r
| er_opp l v : evalR l v -> evalR (map Ropp l) (nopp v)
| er_add l m v w : evalR l v -> evalR m w -> evalR (l ++ m) (nadd v w)
| er_sub l m v w : evalR l v -> evalR m w -> evalR (l ++ map Ropp m) (nsub v w)
| er_perm l m v : evalR l v -> Permutation l m -> evalR m v.

Lemma evalR_valid l v : evalR l v -> valid v.
Proof.
  induction 1; auto using valid_add, valid_sub, valid_mul, valid_opp.
  - reflexivity.
  - apply H0.
Qed.

(** sums *)
Lemma Lsum_app l m : Lsum (l ++ m) = Lsum l + Lsum m.
Proof. unfold Lsum. induction l as [|a l IH]; cbn; [lra|]. rewrite IH. lra. Qed.
Lemma Labs_app l m : Labs (l ++ m) = Labs l + Labs m.
Proof. unfold Labs. now rewrite map_app, Lsum_app. Qed.
Lemma Lsum_opp l : Lsum (map Ropp l) = - Lsum l.
Proof. unfold Lsum. induction l as [|a l IH]; cbn; [lra|]. rewrite IH. lra. Qed.
Lemma Labs_opp l : Labs (map Ropp l) = Labs l.
Proof. unfold Labs. rewrite map_map. f_equal. apply map_ext. intros a. apply Rabs_Ropp. Qed.
Lemma Lsum_perm l m : Permutation l m -> Lsum l = Lsum m.
Proof. unfold Lsum. induction 1; cbn; try congruence; lra. Qed.
Lemma Labs_perm l m : Permutation l m -> Labs l = Labs m.
Proof. intros H. unfold Labs. apply Lsum_perm. now apply Permutation_map. Qed.
Lemma Labs_pos l : 0 <= Labs l.
Proof. unfold Labs, Lsum. induction l as [|a l IH]; cbn; [lra|]. pose proof (Rabs_pos a). lra. Qed.
Lemma Lsum_abs l : Rabs (Lsum l) <= Labs l.
Proof. unfold Labs, Lsum. induction l as [|a l IH]; cbn; [rewrite Rabs_R0; lra|]. eapply Rle_trans; [apply Rabs_triang|]. lra. Qed.

Lemma gam_S n : gam (S n) = gam n * (1 + u64) + u64.
Proof. unfold gam, u64. cbn. ring. Qed.
Lemma gam_0 : gam 0 = 0. Proof. unfold gam. cbn. ring. Qed.
Lemma gam_pos n : 0 <= gam n.
Proof. induction n as [|n IH]; [rewrite gam_0; lra|]. rewrite gam_S. pose proof u64_pos. nra. Qed.
Lemma gam_mono n m : (n <= m)%nat -> gam n <= gam m.
Proof. induction 1 as [|m H IH]; [lra|]. rewrite gam_S. pose proof u64_pos. pose proof (gam_pos m). nra. Qed.
Lemma pow_gam n : (1 + u64) ^ n = 1 + gam n.
Proof. unfold gam, u64. ring. Qed.
Lemma tiny_eq n : tiny n = INR n * eta64 * (1 + gam n).
Proof. unfold tiny. fold eta64. rewrite <- pow_gam. reflexivity. Qed.
Lemma tiny_pos n : 0 <= tiny n.
Proof. rewrite tiny_eq. pose proof (pos_INR n). pose proof eta64_pos. pose proof (gam_pos n). apply Rmult_le_pos; [apply Rmult_le_pos; lra|lra]. Qed.
Lemma tiny_mono n m : (n <= m)%nat -> tiny n <= tiny m.
Proof.
  intros H. rewrite !tiny_eq. pose proof (pos_INR n). pose proof eta64_pos. pose proof (gam_pos n). pose proof (gam_mono n m H).
  pose proof (le_INR n m H). apply Rmult_le_compat; try lra; [apply Rmult_le_pos; lra|]. apply Rmult_le_compat_r; lra.
Qed.
Lemma gam_le n : (Z.of_nat n <= 2 ^ 50)%Z -> gam n <= INR n * bpow radix2 (-52).
Proof.
  intros Hn. assert (E : bpow radix2 (-52) = 2 * u64) by (unfold u64; change 2 with (bpow radix2 1); now rewrite <- bpow_plus).
  rewrite E. pose proof u64_val as UV. pose proof u64_pos as UP.
  assert (B : forall k, (k <= n)%nat -> INR k * u64 <= / 8).
  { intros k Hk. assert (INR k <= 1125899906842624).
    { rewrite INR_IZR_INZ. apply IZR_le. lia. }
    rewrite UV. pose proof (pos_INR k). lra. }
  assert (G : forall k, (k <= n)%nat -> gam k <= INR k * (2 * u64)).
  { induction k as [|k IH]; intros Hk; [rewrite gam_0; cbn; lra|]. rewrite gam_S, S_INR.
    pose proof (IH ltac:(lia)). pose proof (B k ltac:(lia)). pose proof (pos_INR k). pose proof (gam_pos k). nra. }
  apply G. lia.
Qed.

(** one rounding of the sum of two approximations *)
Lemma round_step m x y X Y A B r d a b : Rabs d <= u64 ->
  Rabs (x - X) <= gam m * A + a * (1 + gam m) -> Rabs (y - Y) <= gam m * B + b * (1 + gam m) -> Rabs X <= A -> Rabs Y <= B ->
  0 <= a -> 0 <= b -> r = (x + y) * (1 + d) ->
  Rabs (r - (X + Y)) <= gam (S m) * (A + B) + (a + b) * (1 + gam (S m)).
Proof.
  intros Hd Hx Hy HX HY Ha Hb ->. rewrite gam_S. pose proof (gam_pos m) as G. pose proof u64_pos as UP.
  set (g := gam m) in *.
  assert (E1 : Rabs ((x + y) - (X + Y)) <= g * (A + B) + (a + b) * (1 + g)).
  { replace (x + y - (X + Y)) with ((x - X) + (y - Y)) by ring. eapply Rle_trans; [apply Rabs_triang|]. lra. }
  assert (E2 : Rabs (x + y) <= (1 + g) * (A + B) + (a + b) * (1 + g)).
  { replace (x + y) with ((x + y - (X + Y)) + (X + Y)) by ring. eapply Rle_trans; [apply Rabs_triang|].
    assert (Rabs (X + Y) <= A + B) by (eapply Rle_trans; [apply Rabs_triang|lra]). lra. }
  replace ((x + y) * (1 + d) - (X + Y)) with ((x + y - (X + Y)) + (x + y) * d) by ring.
  eapply Rle_trans; [apply Rabs_triang|].
  assert (E3 : Rabs ((x + y) * d) <= ((1 + g) * (A + B) + (a + b) * (1 + g)) * u64).
  { rewrite Rabs_mult. apply Rmult_le_compat; auto using Rabs_pos. }
  replace ((g * (1 + u64) + u64) * (A + B) + (a + b) * (1 + (g * (1 + u64) + u64)))
    with ((g * (A + B) + (a + b) * (1 + g)) + ((1 + g) * (A + B) + (a + b) * (1 + g)) * u64) by ring. lra.
Qed.

Lemma weaken n m x X A : (n <= m)%nat -> 0 <= A -> Rabs (x - X) <= gam n * A + tiny n ->
  Rabs (x - X) <= gam m * A + INR n * eta64 * (1 + gam m).
Proof.
  intros H HA E. rewrite tiny_eq in E. pose proof (gam_mono n m H). pose proof (gam_pos n). pose proof (pos_INR n). pose proof eta64_pos.
  assert (gam n * A <= gam m * A) by (apply Rmult_le_compat_r; lra).
  assert (INR n * eta64 * (1 + gam n) <= INR n * eta64 * (1 + gam m)) by (apply Rmult_le_compat_l; [apply Rmult_le_pos; lra|lra]). lra.
Qed.

Lemma nil_zero l v : evalR l v -> l = [] -> isfin v -> V v = 0.
Proof.
  induction 1 as [|x Hx|a b Ha Hb|a b l v r E IH Hr|l v E IH|l m v w E1 IH1 E2 IH2|l m v w E1 IH1 E2 IH2|l m v E IH P]; intros HL F; try discriminate.
  - reflexivity.
  - apply map_eq_nil in HL. rewrite V_opp, IH; auto using fin_opp. lra.
  - apply app_eq_nil in HL. destruct HL as [-> ->].
    destruct (add_inv v w (evalR_valid _ _ E1) (evalR_valid _ _ E2) F) as (F1 & F2 & ->). rewrite IH1, IH2 by auto. rewrite Rplus_0_r. apply rnd_0.
  - apply app_eq_nil in HL. destruct HL as [-> HM]. apply map_eq_nil in HM. subst m.
    destruct (sub_inv v w (evalR_valid _ _ E1) (evalR_valid _ _ E2) F) as (F1 & F2 & ->). rewrite IH1, IH2 by auto. rewrite Rminus_0_r. apply rnd_0.
  - subst m. apply Permutation_sym, Permutation_nil in P. subst l. auto.
Qed.

Lemma combine_err l m v w r : isfin v -> isfin w -> (l = [] -> V v = 0) -> (m = [] -> V w = 0) ->
  Rabs (V v - Lsum l) <= gam (length l) * Labs l + tiny (length l) ->
  Rabs (V w - Lsum m) <= gam (length m) * Labs m + tiny (length m) ->
  r = rnd (V v + V w) ->
  Rabs (r - Lsum (l ++ m)) <= gam (length (l ++ m)) * Labs (l ++ m) + tiny (length (l ++ m)).
Proof.
  intros Fv Fw Zl Zm El Em ->. destruct l as [|x l].
  { cbn [app]. rewrite (Zl eq_refl), Rplus_0_l, rnd_V by exact Fw. exact Em. }
  destruct m as [|y m].
  { rewrite app_nil_r. rewrite (Zm eq_refl), Rplus_0_r, rnd_V by exact Fv. exact El. }
  set (L := x :: l) in *. set (M := y :: m) in *. rewrite Lsum_app, Labs_app, app_length.
  assert (N1 : (length L <= length L + length M - 1)%nat) by (cbn; lia).
  assert (N2 : (length M <= length L + length M - 1)%nat) by (cbn; lia).
  replace (length L + length M)%nat with (S (length L + length M - 1)) by (cbn; lia).
  set (k := (length L + length M - 1)%nat) in *.
  destruct (rnd_plus_err (V v) (V w) (V_format _ Fv) (V_format _ Fw)) as (d & Hd & Er).
  pose proof (round_step k (V v) (V w) (Lsum L) (Lsum M) (Labs L) (Labs M) (rnd (V v + V w)) d (INR (length L) * eta64) (INR (length M) * eta64) Hd
    (weaken _ _ _ _ _ N1 (Labs_pos L) El) (weaken _ _ _ _ _ N2 (Labs_pos M) Em) (Lsum_abs L) (Lsum_abs M)) as Q.
  pose proof eta64_pos. pose proof (pos_INR (length L)). pose proof (pos_INR (length M)).
  specialize (Q ltac:(apply Rmult_le_pos; lra) ltac:(apply Rmult_le_pos; lra) Er).
  rewrite tiny_eq. replace (INR (S k)) with (INR (length L) + INR (length M)) by (rewrite <- plus_INR; f_equal; unfold k; cbn; lia).
  rewrite !Rmult_plus_distr_r in *. lra.
Qed.

Theorem evalR_err l v : evalR l v -> isfin v ->
  Rabs (V v - Lsum l) <= gam (length l) * Labs l + tiny (length l).
Proof.
  induction 1 as [|x Hx|a b Ha Hb|a b l v r E IH Hr|l v E IH|l m v w E1 IH1 E2 IH2|l m v w E1 IH1 E2 IH2|l m v E IH P]; intros F.
  - change (V nzero) with 0. change (Lsum []) with 0. change (Labs []) with 0. cbn [length]. rewrite Rminus_0_r, Rabs_R0. pose proof (tiny_pos 0). lra.
  - pose proof (gam_pos 1). pose proof (tiny_pos 1). pose proof (Labs_pos [V x]). unfold Lsum. cbn [fold_right length].
    replace (V x - (V x + 0)) with 0 by ring. rewrite Rabs_R0. nra.
  - destruct (mul_inv a b Ha Hb F) as (Fa & Fb & ->). destruct (rnd_err (V a * V b)) as (d & e & Hd & He & ->).
    unfold Labs. cbn [map Lsum fold_right length]. rewrite !Rplus_0_r. rewrite tiny_eq, gam_S, gam_0. cbn [INR].
    replace (V a * V b * (1 + d) + e - V a * V b) with (V a * V b * d + e) by ring.
    eapply Rle_trans; [apply Rabs_triang|]. rewrite (Rabs_mult _ d). pose proof (Rabs_pos (V a * V b)). pose proof (Rabs_pos d). pose proof eta64_pos. pose proof u64_pos. nra.
  - destruct Hr as [Vr Hr]. destruct (Hr F) as (Fa & Fb & Fv & ->). specialize (IH Fv).
    destruct (rnd_err (V a * V b + V v)) as (d & e & Hd & He & ->).
    cbn [length]. change (V a * V b :: l) with ([V a * V b] ++ l). rewrite Lsum_app, Labs_app.
    unfold Lsum at 1, Labs at 1. cbn [map Lsum fold_right]. rewrite !Rplus_0_r.
    assert (Z : Rabs (V a * V b - V a * V b) <= gam (length l) * Rabs (V a * V b) + 0 * (1 + gam (length l))).
    { rewrite Rminus_diag_eq, Rabs_R0 by reflexivity. pose proof (gam_pos (length l)). pose proof (Rabs_pos (V a * V b)). nra. }
    pose proof eta64_pos. pose proof (pos_INR (length l)).
    assert (P0 : 0 <= INR (length l) * eta64) by (apply Rmult_le_pos; lra).
    pose proof (round_step (length l) _ _ _ _ _ _ _ d 0 (INR (length l) * eta64) Hd Z
      (weaken _ _ _ _ _ (le_n _) (Labs_pos l) IH) (Rle_refl _) (Lsum_abs l) (Rle_refl 0) P0 eq_refl) as Q.
    set (q := (V a * V b + V v) * (1 + d)) in *.
    replace (q + e - (V a * V b + Lsum l)) with ((q - (V a * V b + Lsum l)) + e) by ring.
    eapply Rle_trans; [apply Rabs_triang|]. rewrite tiny_eq, S_INR. pose proof (gam_pos (S (length l))).
    assert (eta64 <= eta64 * (1 + gam (S (length l)))) by nra. lra.
  - rewrite V_opp, Lsum_opp, Labs_opp, map_length. replace (- V v - - Lsum l) with (- (V v - Lsum l)) by ring. rewrite Rabs_Ropp. auto using fin_opp.
  - destruct (add_inv v w (evalR_valid _ _ E1) (evalR_valid _ _ E2) F) as (F1 & F2 & Er).
    apply (combine_err l m v w); auto.
    + intros Q. exact (nil_zero l v E1 Q F1).
    + intros Q. exact (nil_zero m w E2 Q F2).
  - destruct (sub_inv v w (evalR_valid _ _ E1) (evalR_valid _ _ E2) F) as (F1 & F2 & Er).
    assert (F2' : isfin (nopp w)) by (destruct F2 as [G1 G2]; destruct w; try discriminate; split; auto).
    apply (combine_err l (map Ropp m) v (nopp w)); auto.
    + intros Q. exact (nil_zero l v E1 Q F1).
    + intros Q. apply map_eq_nil in Q. subst m. rewrite V_opp, (nil_zero [] w E2 eq_refl F2). lra.
    + rewrite V_opp, Lsum_opp, Labs_opp, map_length. replace (- V w - - Lsum m) with (- (V w - Lsum m)) by ring. rewrite Rabs_Ropp. auto.
    + rewrite V_opp. exact Er.
  - rewrite <- (Lsum_perm _ _ P), <- (Labs_perm _ _ P), <- (Permutation_length P). auto.
Qed.

Lemma evalsum_valid l v : evalsum l v -> valid v.
Proof.
  induction 1; auto using valid_add, valid_sub, valid_mul, valid_opp.
  - reflexivity.
  - apply H0.
Qed.

(** a computed sum that is a number has numbers as terms *)
Lemma evalsum_real l v : evalsum l v -> isfin v -> exists rs, l = map XF rs /\ evalR rs v.
Proof.
  induction 1 as [|x Hx|a b Ha Hb|a b l v r E IH Hr|l v E IH|l m v w E1 IH1 E2 IH2|l m v w E1 IH1 E2 IH2|l m v E IH P]; intros F.
  - exists []. split; [reflexivity|constructor].
  - exists [V x]. split; [cbn [map]; now rewrite (xof_fin _ F)|now constructor].
  - destruct (mul_inv a b Ha Hb F) as (Fa & Fb & _). exists [V a * V b]. split; [|now constructor].
    cbn [map]. now rewrite (xof_fin _ Fa), (xof_fin _ Fb).
  - destruct Hr as [Vr Hr]. destruct (Hr F) as (Fa & Fb & Fv & E0). destruct (IH Fv) as (rs & -> & I).
    exists (V a * V b :: rs). split; [cbn [map]; now rewrite (xof_fin _ Fa), (xof_fin _ Fb)|].
    eapply er_fma; [exact I|]. split; [exact Vr|]. intros _. auto.
  - destruct (IH (fin_opp _ F)) as (rs & -> & I). exists (map Ropp rs). split; [now rewrite !map_map|now constructor].
  - destruct (add_inv v w (evalsum_valid _ _ E1) (evalsum_valid _ _ E2) F) as (F1 & F2 & _).
    destruct (IH1 F1) as (rs & -> & I1), (IH2 F2) as (ss & -> & I2). exists (rs ++ ss). split; [now rewrite map_app|now constructor].
  - destruct (sub_inv v w (evalsum_valid _ _ E1) (evalsum_valid _ _ E2) F) as (F1 & F2 & _).
    destruct (IH1 F1) as (rs & -> & I1), (IH2 F2) as (ss & -> & I2). exists (rs ++ map Ropp ss).
    split; [now rewrite map_app, !map_map|now constructor].
  - destruct (IH F) as (rs & -> & I). apply Permutation_sym, Permutation_map_inv in P. destruct P as (ss & -> & P).
    exists ss. split; [reflexivity|]. eapply er_perm; [exact I|]. exact P.
Qed.

Theorem evalsum_err l v : evalsum l v -> isfin v -> exists rs, l = map XF rs /\
  Rabs (V v - Lsum rs) <= gam (length rs) * Labs rs + tiny (length rs).
Proof. intros E F. destruct (evalsum_real l v E F) as (rs & -> & I). exists rs. split; [reflexivity|]. now apply evalR_err. Qed.
