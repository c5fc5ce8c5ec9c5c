From Coq Require Import List Arith Bool ZArith Reals Lra Lia Psatz.
From Coq Require Import Floats.SpecFloat.
Import ListNotations.
From Verif Require Import Num Index_spec Index_proofs Num_facts Step_proofs Minimize_model Minimize_spec.
Local Open Scope R_scope.

(** ** Golden section in exact arithmetic *)
Definition inI (lo hi x : R) : Prop := lo <= x <= hi.

Lemma phi_R : @phi R _ = 61803398875 / 100000000000.
Proof. reflexivity. Qed.

Definition gs_box (s : @gs_state R) : Prop :=
  inI 0 1 (gs_a s) /\ inI 0 1 (gs_b s) /\ inI 0 1 (gs_c s) /\ inI 0 1 (gs_d s) /\ Forall (inI 0 1) (gs_evals s).

Lemma gs_step_box g s : gs_box s -> gs_box (gs_step g s).
Proof.
  intros (Ha & Hb & Hc & Hd & He). unfold gs_step. destruct (nltb (gs_fc s) (gs_fd s)).
  - assert (H : inI 0 1 (nsub (gs_d s) (nmul phi (nsub (gs_d s) (gs_a s))))).
    { unfold inI in *. cbn [nsub nmul Num_R]. rewrite phi_R. lra. }
    repeat split; simpl; try apply Ha; try apply Hb; try apply Hc; try apply Hd; try apply H.
    apply Forall_app; split; [exact He|]. constructor; [exact H|constructor].
  - assert (H : inI 0 1 (nadd (gs_c s) (nmul phi (nsub (gs_b s) (gs_c s))))).
    { unfold inI in *. cbn [nsub nmul nadd Num_R]. rewrite phi_R. lra. }
    repeat split; simpl; try apply Ha; try apply Hb; try apply Hc; try apply Hd; try apply H.
    apply Forall_app; split; [exact He|]. constructor; [exact H|constructor].
Qed.

Lemma gs_init_box g : gs_box (gs_init g).
Proof.
  unfold gs_box, gs_init, inI. simpl. unfold nzero, none1, phi. cbn.
  repeat split; try lra. repeat constructor; lra.
Qed.

Lemma gs_loop_box g tol : forall fuel s s', gs_box s -> gs_loop fuel g tol s = Some s' -> gs_box s'.
Proof.
  induction fuel as [|fuel IH]; intros s s' Hs H; cbn [gs_loop] in H.
  - destruct (gs_continue tol s); [discriminate|]. injection H as <-. exact Hs.
  - destruct (gs_continue tol s); [|injection H as <-; exact Hs].
    eapply IH; [|exact H]. apply gs_step_box, Hs.
Qed.

Lemma gs_map_in a b x : a <= b -> inI 0 1 x -> inI a b (gs_map a b x).
Proof. unfold inI, gs_map. cbn. intros H1 H2. split; nra. Qed.

Lemma golden_inside f fuel a b tol r evals : a <= b ->
  minimizeGoldenSectionSearch f fuel a b tol = Some (r, evals) ->
  a <= r <= b /\ Forall (fun x => a <= x <= b) evals.
Proof.
  intros Hab. unfold minimizeGoldenSectionSearch.
  destruct (goldenUnit fuel (fun x => f (gs_map a b x)) tol) as [[x ev]|] eqn:E; [|discriminate].
  intros H. injection H as <- <-.
  assert (Hx : inI 0 1 x /\ Forall (inI 0 1) ev).
  { unfold goldenUnit in E. destruct (nltb _ tol).
    - injection E as <- <-. split; [|constructor]. unfold inI, none1, nzero. cbn. lra.
    - destruct (gs_loop fuel _ tol (gs_init _)) as [s|] eqn:El; [|discriminate]. injection E as <- <-.
      destruct (gs_loop_box _ _ _ _ _ (gs_init_box _) El) as (Ha & Hb & _ & _ & He).
      split; [|exact He]. unfold inI in *. cbn. lra. }
  destruct Hx as [Hx He]. split; [apply gs_map_in; assumption|].
  apply Forall_forall. intros y Hy. apply in_map_iff in Hy. destruct Hy as (z & <- & Hz).
  apply gs_map_in; [exact Hab|]. rewrite Forall_forall in He. apply He, Hz.
Qed.

(** Drift of the interior points from their golden positions *)
Definition ph : R := 61803398875 / 100000000000.
Definition delta : R := ph * ph + ph - 1.
Definition kappa : R := delta / (1 - ph).
Definition vmax : R := 7 / 10000000000000.
Definition gs_L (s : @gs_state R) : R := gs_b s - gs_a s.
Definition gs_E (s : @gs_state R) : R := gs_d s - (gs_a s + ph * gs_L s).
Definition gs_F (s : @gs_state R) : R := gs_c s - (gs_b s - ph * gs_L s).
Definition gs_e (s : @gs_state R) : R := Rabs (gs_E s) + Rabs (gs_F s).

Definition drift (k : nat) (s : @gs_state R) : Prop :=
  gs_e s + kappa * Rabs (gs_L s) <= kappa + INR k / 10 ^ 20 /\
  Rabs (gs_L s) <= ph ^ k + vmax / (1 - ph).

Lemma delta_pos : 0 < delta.
Proof. unfold delta, ph. lra. Qed.
Lemma kappa_eq : delta + kappa * ph = kappa.
Proof. unfold kappa. field. unfold ph. lra. Qed.
Lemma kappa_bounds : 0 < kappa < 65 / 100000000000000.
Proof. unfold kappa, delta, ph. split; lra. Qed.

Lemma gs_e_pos s : 0 <= gs_e s.
Proof. unfold gs_e. pose proof (Rabs_pos (gs_E s)). pose proof (Rabs_pos (gs_F s)). lra. Qed.

Lemma drift_e k s : (k <= 64)%nat -> drift k s -> gs_e s <= vmax.
Proof.
  intros Hk [H _]. pose proof (Rabs_pos (gs_L s)). pose proof kappa_bounds as Hkap.
  assert (INR k <= 64) by (replace 64 with (INR 64) by (simpl; lra); apply le_INR; exact Hk).
  unfold vmax. assert (0 <= kappa * Rabs (gs_L s)) by (apply Rmult_le_pos; lra). lra.
Qed.

Lemma abs_case x : 0 <= x /\ Rabs x = x \/ x < 0 /\ Rabs x = - x.
Proof. destruct (Rle_dec 0 x); [left; rewrite Rabs_right by lra|right; rewrite Rabs_left by lra]; lra. Qed.

Lemma Rabs_tri3 x y z : Rabs (x + y + z) <= Rabs x + Rabs y + Rabs z.
Proof.
  eapply Rle_trans; [apply Rabs_triang|]. apply Rplus_le_compat_r. apply Rabs_triang.
Qed.

Lemma gs_step_EFL g s :
  (gs_F (gs_step g s) = 0 /\ gs_E (gs_step g s) = - delta * gs_L s + gs_F s - ph * gs_E s /\
     gs_L (gs_step g s) = ph * gs_L s + gs_E s) \/
  (gs_E (gs_step g s) = 0 /\ gs_F (gs_step g s) = delta * gs_L s + gs_E s - ph * gs_F s /\
     gs_L (gs_step g s) = ph * gs_L s - gs_F s).
Proof.
  unfold gs_E, gs_F, gs_L, gs_step, delta. destruct (nltb (gs_fc s) (gs_fd s)); simpl; unfold phi; cbn;
    fold ph; [left|right]; repeat split; ring.
Qed.

Lemma drift_step g k s : (k < 64)%nat -> drift k s -> drift (S k) (gs_step g s).
Proof.
  intros Hk Hd. pose proof (drift_e k s ltac:(lia) Hd) as He. destruct Hd as [H1 H2].
  pose proof (Rabs_pos (gs_L s)) as HL. pose proof kappa_bounds as Hkap. pose proof delta_pos as Hdel.
  pose proof (gs_e_pos s) as He0. pose proof kappa_eq as Hkeq.
  assert (Hph : 0 < ph < 1) by (unfold ph; lra).
  assert (Hmain : gs_e (gs_step g s) <= gs_e s + delta * Rabs (gs_L s) /\
                  Rabs (gs_L (gs_step g s)) <= ph * Rabs (gs_L s) + gs_e s).
  { unfold gs_e in *. pose proof (Rabs_pos (gs_E s)). pose proof (Rabs_pos (gs_F s)).
    destruct (gs_step_EFL g s) as [(-> & -> & ->)|(-> & -> & ->)]; rewrite Rabs_R0.
    - split.
      + replace (- delta * gs_L s + gs_F s - ph * gs_E s) with (- delta * gs_L s + gs_F s + - ph * gs_E s) by ring.
        pose proof (Rabs_tri3 (- delta * gs_L s) (gs_F s) (- ph * gs_E s)) as Ht.
        rewrite !Rabs_mult, !Rabs_Ropp, (Rabs_right delta), (Rabs_right ph) in Ht by lra.
        assert (ph * Rabs (gs_E s) <= Rabs (gs_E s)) by nra. lra.
      + eapply Rle_trans; [apply Rabs_triang|]. rewrite Rabs_mult, (Rabs_right ph) by lra. lra.
    - split.
      + replace (delta * gs_L s + gs_E s - ph * gs_F s) with (delta * gs_L s + gs_E s + - ph * gs_F s) by ring.
        pose proof (Rabs_tri3 (delta * gs_L s) (gs_E s) (- ph * gs_F s)) as Ht.
        rewrite !Rabs_mult, !Rabs_Ropp, (Rabs_right delta), (Rabs_right ph) in Ht by lra.
        assert (ph * Rabs (gs_F s) <= Rabs (gs_F s)) by nra. lra.
      + unfold Rminus. eapply Rle_trans; [apply Rabs_triang|].
        rewrite Rabs_Ropp, Rabs_mult, (Rabs_right ph) by lra. lra. }
  destruct Hmain as [M1 M2]. split.
  - rewrite S_INR. assert (kappa * gs_e s <= 1 / 10 ^ 20).
    { apply Rle_trans with (65 / 100000000000000 * vmax).
      - apply Rmult_le_compat; lra.
      - unfold vmax. simpl. lra. }
    assert (kappa * Rabs (gs_L (gs_step g s)) <= kappa * (ph * Rabs (gs_L s) + gs_e s)) by (apply Rmult_le_compat_l; lra).
    assert (delta * Rabs (gs_L s) + kappa * (ph * Rabs (gs_L s)) = kappa * Rabs (gs_L s)).
    { rewrite <- Hkeq at 2. ring. }
    lra.
  - simpl pow. assert (ph * (vmax / (1 - ph)) + vmax = vmax / (1 - ph)) by (unfold ph; field).
    assert (ph * Rabs (gs_L s) <= ph * (ph ^ k + vmax / (1 - ph))) by (apply Rmult_le_compat_l; lra).
    lra.
Qed.

Lemma drift_init g : drift 0 (gs_init g).
Proof.
  unfold drift, gs_e, gs_E, gs_F, gs_L, gs_init. simpl. unfold nzero, none1, phi. cbn. fold ph.
  replace (ph - (0 + ph * (1 - 0))) with 0 by ring. replace (1 - ph - (1 - ph * (1 - 0))) with 0 by ring.
  rewrite Rabs_R0, Rminus_0_r, Rabs_R1. unfold vmax, ph. lra.
Qed.

Lemma ph_64 : ph ^ 64 <= 1 / 10 ^ 13.
Proof.
  assert (H8 : 0 <= ph ^ 8 <= 22 / 1000) by (unfold ph; simpl; lra).
  replace 64%nat with (8 * 8)%nat by reflexivity. rewrite pow_mult.
  apply Rle_trans with ((22 / 1000) ^ 8); [apply pow_incr; exact H8|]. simpl. lra.
Qed.

Definition tol0 : R := 2 / 1000000000000.

Lemma drift_end tol s : tol0 <= tol -> drift 64 s -> gs_continue tol s = false.
Proof.
  intros Ht Hd. pose proof (drift_e 64 s ltac:(lia) Hd) as He. destruct Hd as [_ H2].
  pose proof ph_64 as H64. unfold gs_continue, ngtb. cbn. apply rltb_false.
  assert (Hcd : gs_c s - gs_d s = (1 - 2 * ph) * gs_L s + gs_F s + - gs_E s)
    by (unfold gs_F, gs_E, gs_L; ring).
  rewrite Hcd. eapply Rle_trans; [apply Rabs_tri3|]. rewrite Rabs_Ropp, Rabs_mult.
  unfold gs_e in He. replace (Rabs (1 - 2 * ph)) with (2 * ph - 1) by (unfold ph; rewrite Rabs_left; lra).
  assert ((2 * ph - 1) * Rabs (gs_L s) <= (2 * ph - 1) * (1 / 10 ^ 13 + vmax / (1 - ph))).
  { apply Rmult_le_compat_l; [unfold ph; lra|]. lra. }
  unfold tol0 in Ht. unfold vmax, ph in *. lra.
Qed.

Lemma gs_loop_ends g tol : tol0 <= tol -> forall m k s fuel, (k + m = 64)%nat -> (m <= fuel)%nat -> drift k s ->
  exists s' j, gs_loop fuel g tol s = Some s' /\ (j <= 64)%nat /\ drift j s' /\ gs_continue tol s' = false /\
    (length (gs_evals s') + k = length (gs_evals s) + j)%nat.
Proof.
  intros Ht. induction m as [|m IH]; intros k s fuel Hk Hf Hd.
  - assert (k = 64)%nat by lia. subst k. exists s, 64%nat. pose proof (drift_end tol s Ht Hd) as He.
    split; [|split; [lia|split; [exact Hd|split; [exact He|lia]]]]. destruct fuel; cbn [gs_loop]; rewrite He; reflexivity.
  - destruct fuel as [|fuel]; [lia|]. cbn [gs_loop]. destruct (gs_continue tol s) eqn:Ec.
    + destruct (IH (S k) (gs_step g s) fuel ltac:(lia) ltac:(lia) (drift_step g k s ltac:(lia) Hd))
        as (s' & j & E & Hj & Hd' & Hc & Hlen).
      exists s', j. repeat split; try assumption; try apply Hd'.
      assert (length (gs_evals (gs_step g s)) = S (length (gs_evals s))).
      { unfold gs_step. destruct (nltb _ _); simpl; rewrite app_length; simpl; lia. }
      lia.
    + exists s, k. repeat split; try assumption; try apply Hd; lia.
Qed.

Lemma golden_terminates f fuel a b tol : a <= b -> tol0 <= tol -> (64 <= fuel)%nat ->
  exists r evals, minimizeGoldenSectionSearch f fuel a b tol = Some (r, evals) /\ (length evals <= 66)%nat.
Proof.
  intros Hab Ht Hf. unfold minimizeGoldenSectionSearch, goldenUnit.
  destruct (nltb _ tol); [eexists; eexists; split; [reflexivity|simpl; lia]|].
  destruct (gs_loop_ends (fun x => f (gs_map a b x)) tol Ht 64 0 (gs_init (fun x => f (gs_map a b x))) fuel eq_refl Hf (drift_init _))
    as (s' & j & E & Hj & _ & _ & Hlen). rewrite E.
  eexists; eexists; split; [reflexivity|]. rewrite map_length. simpl in Hlen. lia.
Qed.

(** Unimodal functions: the minimiser stays bracketed *)
Definition bracket (g : R -> R) (m : R) (s : @gs_state R) : Prop :=
  gs_fc s = g (gs_c s) /\ gs_fd s = g (gs_d s) /\ gs_a s <= m <= gs_b s.

Lemma continue_order tol k s : (k <= 64)%nat -> tol0 <= tol -> drift k s -> 0 <= gs_L s ->
  gs_continue tol s = true -> gs_a s < gs_c s < gs_d s /\ gs_d s < gs_b s.
Proof.
  intros Hk Ht Hd HL Hc. pose proof (drift_e k s Hk Hd) as He.
  unfold gs_continue, ngtb in Hc. cbn in Hc. apply rltb_true in Hc.
  assert (Hcd : gs_c s - gs_d s = (1 - 2 * ph) * gs_L s + gs_F s - gs_E s)
    by (unfold gs_F, gs_E, gs_L; ring).
  assert (Hca : gs_c s - gs_a s = (1 - ph) * gs_L s + gs_F s) by (unfold gs_F, gs_L; ring).
  assert (Hbd : gs_b s - gs_d s = (1 - ph) * gs_L s - gs_E s) by (unfold gs_E, gs_L; ring).
  unfold gs_e in He.
  destruct (abs_case (gs_E s)) as [[? HE]|[? HE]]; destruct (abs_case (gs_F s)) as [[? HF]|[? HF]];
    rewrite HE, HF in He; destruct (abs_case (gs_c s - gs_d s)) as [[? Hab]|[? Hab]]; rewrite Hab in Hc;
    unfold tol0, vmax, ph in *; repeat split; nra.
Qed.

Lemma gs_step_bracket g m s : unimodal g 0 1 m -> gs_box s ->
  bracket g m s -> gs_a s < gs_c s < gs_d s /\ gs_d s < gs_b s -> bracket g m (gs_step g s).
Proof.
  intros (Hm & Hdec & Hinc) (Ba & Bb & Bc & Bd & _) (Efc & Efd & Hab) Hord. unfold inI in *.
  unfold gs_step. destruct (nltb (gs_fc s) (gs_fd s)) eqn:E; cbn in E.
  - apply rltb_true in E. rewrite Efc, Efd in E. split; [reflexivity|]. split; [exact Efc|]. simpl.
    split; [lra|]. destruct (Rle_dec m (gs_d s)); [assumption|]. exfalso.
    assert (g (gs_d s) < g (gs_c s)) by (apply Hdec; lra). lra.
  - apply rltb_false in E. rewrite Efc, Efd in E. split; [exact Efd|]. split; [reflexivity|]. simpl.
    split; [|lra]. destruct (Rle_dec (gs_c s) m); [assumption|]. exfalso.
    assert (g (gs_c s) < g (gs_d s)) by (apply Hinc; lra). lra.
Qed.

Lemma gs_loop_bracket g m tol : tol0 <= tol -> unimodal g 0 1 m -> forall fuel k s s',
  (k + fuel <= 64)%nat -> drift k s -> gs_box s -> bracket g m s -> gs_loop fuel g tol s = Some s' ->
  bracket g m s' /\ gs_continue tol s' = false /\ exists j, (j <= 64)%nat /\ drift j s'.
Proof.
  intros Ht Hu. induction fuel as [|fuel IH]; intros k s s' Hk Hd Hb Hbr E; cbn [gs_loop] in E.
  - destruct (gs_continue tol s) eqn:Ec; [discriminate|]. injection E as <-.
    split; [exact Hbr|]. split; [exact Ec|]. exists k. split; [lia|exact Hd].
  - destruct (gs_continue tol s) eqn:Ec.
    + assert (HL : 0 <= gs_L s) by (unfold gs_L; destruct Hbr as (_ & _ & ?); lra).
      pose proof (continue_order tol k s ltac:(lia) Ht Hd HL Ec) as Hord.
      apply (IH (S k) (gs_step g s) s'); [lia|apply drift_step; [lia|exact Hd]|apply gs_step_box, Hb| |exact E].
      apply gs_step_bracket; assumption.
    + injection E as <-. split; [exact Hbr|]. split; [exact Ec|]. exists k. split; [lia|exact Hd].
Qed.

Lemma gs_loop_mono {T} {N : Num T} (g : T -> T) tol : forall fuel s s', gs_loop fuel g tol s = Some s' ->
  forall extra, gs_loop (fuel + extra) g tol s = Some s'.
Proof.
  induction fuel as [|fuel IH]; intros s s' E extra; cbn [gs_loop Nat.add] in *.
  - destruct (gs_continue tol s) eqn:Ec; [discriminate|]. destruct extra; cbn [gs_loop Nat.add]; rewrite Ec; exact E.
  - destruct (gs_continue tol s); [apply IH, E|exact E].
Qed.

Lemma golden_unit_unimodal g m tol fuel : unimodal g 0 1 m -> tol0 <= tol -> (64 <= fuel)%nat ->
  exists x ev, goldenUnit fuel g tol = Some (x, ev) /\ Rabs (x - m) <= 3 * tol.
Proof.
  intros Hu Ht Hf. pose proof Hu as (Hm & _ & _). unfold goldenUnit.
  destruct (nltb (nabs (nsub (nsub none1 phi) phi)) tol) eqn:E0.
  - eexists; eexists; split; [reflexivity|]. unfold none1, nzero in *. cbn in *. apply rltb_true in E0.
    rewrite Rabs_left in E0 by lra.
    destruct (abs_case ((1 + 0) / 2 - m)) as [[_ ->]|[_ ->]]; lra.
  - destruct (gs_loop_ends g tol Ht 64 0 (gs_init g) 64 eq_refl (Nat.le_refl 64) (drift_init g))
      as (s' & j & E & _).
    replace fuel with (64 + (fuel - 64))%nat by lia. rewrite (gs_loop_mono _ _ _ _ _ E).
    eexists; eexists; split; [reflexivity|].
    assert (B0 : bracket g m (gs_init g)).
    { split; [reflexivity|]. split; [reflexivity|]. simpl. unfold nzero, none1. cbn. lra. }
    destruct (gs_loop_bracket g m tol Ht Hu 64 0 _ _ (Nat.le_refl 64) (drift_init g) (gs_init_box g) B0 E)
      as ((_ & _ & Hab) & Hc & j' & Hj & Hd).
    pose proof (drift_e j' s' Hj Hd) as He.
    unfold gs_continue, ngtb in Hc. cbn in Hc. apply rltb_false in Hc. cbn.
    assert (HL : 0 <= gs_L s') by (unfold gs_L; lra).
    assert (Hcd : gs_c s' - gs_d s' = (1 - 2 * ph) * gs_L s' + gs_F s' - gs_E s')
      by (unfold gs_F, gs_E, gs_L; ring).
    assert (HLb : gs_L s' <= 6 * tol).
    { unfold gs_e in He.
      destruct (abs_case (gs_E s')) as [[? HE]|[? HE]]; destruct (abs_case (gs_F s')) as [[? HF]|[? HF]];
        rewrite HE, HF in He; destruct (abs_case (gs_c s' - gs_d s')) as [[? Ha]|[? Ha]]; rewrite Ha in Hc;
        unfold tol0, vmax, ph in *; nra. }
    unfold gs_L in *. destruct (abs_case ((gs_b s' + gs_a s') / 2 - m)) as [[_ ->]|[_ ->]]; lra.
Qed.

Lemma golden_unimodal f a b m tol fuel : a < b -> unimodal f a b m -> tol0 <= tol -> (64 <= fuel)%nat ->
  exists r ev, minimizeGoldenSectionSearch f fuel a b tol = Some (r, ev) /\ Rabs (r - m) <= 3 * tol * (b - a).
Proof.
  intros Hab (Hm & Hdec & Hinc) Ht Hf. set (m' := (m - a) / (b - a)).
  assert (Hm' : m = a + m' * (b - a)) by (unfold m'; field; lra).
  assert (Hu : unimodal (fun x => f (gs_map a b x)) 0 1 m').
  { unfold gs_map. cbn. split; [|split].
    - split; nra.
    - intros x y H1 H2 H3. apply Hdec; nra.
    - intros x y H1 H2 H3. apply Hinc; nra. }
  destruct (golden_unit_unimodal _ m' tol fuel Hu Ht Hf) as (x & ev & E & Hx).
  unfold minimizeGoldenSectionSearch. rewrite E. eexists; eexists; split; [reflexivity|].
  unfold gs_map. cbn. rewrite Hm' at 1.
  replace (a + x * (b - a) - (a + m' * (b - a))) with ((x - m') * (b - a)) by ring.
  rewrite Rabs_mult, (Rabs_right (b - a)) by lra. apply Rmult_le_compat_r; lra.
Qed.

(** ** Brent in exact arithmetic *)
Definition br_inv (f : R -> R) (lo hi : R) (s : @br_state R) : Prop :=
  lo <= br_min s /\ br_max s <= hi /\ br_min s <= br_x s <= br_max s /\
  br_fx s = f (br_x s) /\ In (br_x s) (br_evals s) /\ In hi (br_evals s) /\
  (forall e, In e (br_evals s) -> lo <= e <= hi /\ f (br_x s) <= f e).

Lemma rgeb_true (a b : R) : ngeb a b = true <-> b <= a.
Proof. unfold ngeb. cbn. apply rleb_true. Qed.
Lemma rgeb_false (a b : R) : ngeb a b = false <-> a < b.
Proof. unfold ngeb. cbn. apply rleb_false. Qed.
Lemma rgtb_true (a b : R) : ngtb a b = true <-> b < a.
Proof. unfold ngtb. cbn. apply rltb_true. Qed.
Lemma rgtb_false (a b : R) : ngtb a b = false <-> a <= b.
Proof. unfold ngtb. cbn. apply rltb_false. Qed.

Lemma br_fract1_pos tol (s : @br_state R) : 0 < tol -> 0 < br_fract1 tol s.
Proof.
  intros H. unfold br_fract1. cbn. pose proof (Rabs_pos (br_x s)).
  assert (0 <= tol * Rabs (br_x s)) by (apply Rmult_le_pos; lra). lra.
Qed.

Lemma br_u_inside tol (s : @br_state R) : 0 < tol -> br_min s <= br_x s <= br_max s ->
  br_done tol s = false -> br_min s <= br_u tol s <= br_max s.
Proof.
  intros Ht Hx Hd. pose proof (br_fract1_pos tol s Ht) as Hf1.
  unfold br_done, br_mid, br_fract2, two in Hd. cbn in Hd. apply rleb_false in Hd.
  set (f1 := br_fract1 tol s) in *.
  assert (Hwide : (br_mid s <= br_x s -> 2 * f1 < br_x s - br_min s) /\
                  (br_x s < br_mid s -> 2 * f1 < br_max s - br_x s) /\
                  (br_x s <= br_mid s -> 2 * f1 < br_max s - br_x s)).
  { unfold br_mid, two. cbn.
    destruct (abs_case (br_x s - (br_min s + br_max s) / 2)) as [[H1 H2]|[H1 H2]]; rewrite H2 in Hd; repeat split; lra. }
  (* what the golden branch gives *)
  assert (Hgold : forall d, d = fst (br_golden s) ->
    br_min s <= (if ngeb (nabs d) f1 then nadd (br_x s) d
                 else if ngtb d nzero then nadd (br_x s) (nabs f1) else nsub (br_x s) (nabs f1)) <= br_max s).
  { intros d ->. unfold br_golden, golden. cbn [fst]. cbn [nabs nadd nsub nmul ndiv nofZ Num_R].
    unfold nzero. cbn [nofZ Num_R]. rewrite (Rabs_right f1) by lra.
    destruct (ngeb (br_x s) (br_mid s)) eqn:E1; [apply rgeb_true in E1|apply rgeb_false in E1].
    - destruct Hwide as (Hw & _ & _). specialize (Hw E1).
      destruct (ngeb _ f1) eqn:E2; [lra|]. destruct (ngtb _ 0) eqn:E3; [apply rgtb_true in E3; lra|]. lra.
    - destruct Hwide as (_ & Hw & _). specialize (Hw E1).
      destruct (ngeb _ f1) eqn:E2; [lra|]. destruct (ngtb _ 0) eqn:E3; [lra|apply rgtb_false in E3; lra]. }
  unfold br_u. fold f1. unfold br_delta_new. fold f1.
  destruct (ngtb (nabs (br_delta2 s)) f1); [|apply Hgold; reflexivity].
  cbv zeta.
  set (q0 := nmul two (nsub _ _)). set (p0 := nsub (nmul _ _) (nmul _ _)).
  set (p := if ngtb q0 nzero then nopp p0 else p0).
  set (q := nabs q0).
  assert (Hq : 0 <= q) by (unfold q; cbn; apply Rabs_pos).
  clearbody q p. clear q0 p0.
  destruct (ngeb (nabs p) (nabs (ndiv (nmul q (br_delta2 s)) two))); [apply Hgold; reflexivity|].
  destruct (nleb p (nmul q (nsub (br_min s) (br_x s)))) eqn:Ep1; [apply Hgold; reflexivity|].
  destruct (ngeb p (nmul q (nsub (br_max s) (br_x s)))) eqn:Ep2; [apply Hgold; reflexivity|].
  cbn [orb fst]. cbn in Ep1. apply rleb_false in Ep1. apply rgeb_false in Ep2. cbn in Ep2.
  assert (Hq0 : 0 < q) by (destruct (Req_dec q 0) as [->|]; lra).
  set (dl := ndiv p q). assert (Hdl : dl * q = p) by (unfold dl; cbn; field; lra).
  assert (Hd1 : br_min s - br_x s < dl) by (apply (Rmult_lt_reg_r q); lra).
  assert (Hd2 : dl < br_max s - br_x s) by (apply (Rmult_lt_reg_r q); lra).
  clearbody dl. clear Hgold.
  unfold br_fract2, two, nzero. fold f1. cbn [nabs nadd nsub nmul ndiv nofZ nopp nltb Num_R].
  rewrite !(Rabs_right f1) by lra.
  destruct (rltb (br_x s + dl - br_min s) (2 * f1)) eqn:E1; [|destruct (rltb (br_max s - (br_x s + dl)) (2 * f1)) eqn:E2];
    cbn [orb].
  3: { apply rltb_false in E1. apply rltb_false in E2.
       destruct (ngeb (Rabs dl) f1) eqn:E3; [lra|].
       destruct (ngtb dl 0) eqn:E4; [apply rgtb_true in E4; lra|apply rgtb_false in E4; lra]. }
  all: destruct (rltb (br_mid s - br_x s) 0) eqn:E5; [apply rltb_true in E5|apply rltb_false in E5].
  all: destruct Hwide as (Hw1 & Hw2 & Hw3).
  all: rewrite ?Rabs_Ropp, (Rabs_right f1) by lra.
  all: destruct (ngeb f1 f1) eqn:E6; [|apply rgeb_false in E6; lra].
  - assert (2 * f1 < br_x s - br_min s) by (apply Hw1; lra). lra.
  - assert (2 * f1 < br_max s - br_x s) by (apply Hw3; lra). lra.
  - assert (2 * f1 < br_x s - br_min s) by (apply Hw1; lra). lra.
  - assert (2 * f1 < br_max s - br_x s) by (apply Hw3; lra). lra.
Qed.

Lemma br_step_inv f lo hi tol s : 0 < tol -> br_inv f lo hi s -> br_done tol s = false ->
  br_inv f lo hi (br_step f tol s).
Proof.
  intros Ht (H1 & H2 & H3 & H4 & H5 & H5' & H6) Hd. pose proof (br_u_inside tol s Ht H3 Hd) as Hu.
  unfold br_step. destruct (br_delta_new tol s) as [dl dl2]. set (u := br_u tol s) in *.
  assert (Hev : forall y, In y (br_evals s) -> In y (br_evals s ++ [u])) by (intros; apply in_or_app; left; assumption).
  assert (Huin : In u (br_evals s ++ [u])) by (apply in_or_app; right; left; reflexivity).
  destruct (nleb (f u) (br_fx s)) eqn:E; cbn in E; [apply rleb_true in E|apply rleb_false in E].
  - assert (Hall : forall e, In e (br_evals s ++ [u]) -> lo <= e <= hi /\ f u <= f e).
    { intros e He. apply in_app_or in He. destruct He as [He|[<-|[]]]; [|split; lra].
      destruct (H6 e He). split; [assumption|]. rewrite H4 in E. lra. }
    destruct (ngeb u (br_x s)) eqn:E2; [apply rgeb_true in E2|apply rgeb_false in E2];
      unfold br_inv; cbn; repeat split; try lra; try assumption; try (apply Hev; assumption); apply Hall; assumption.
  - assert (Hall : forall e, In e (br_evals s ++ [u]) -> lo <= e <= hi /\ f (br_x s) <= f e).
    { intros e He. apply in_app_or in He. destruct He as [He|[<-|[]]]; [apply H6, He|split; lra]. }
    destruct (nltb u (br_x s)) eqn:E2; cbn in E2; [apply rltb_true in E2|apply rltb_false in E2];
      destruct (_ || _); [|destruct (_ || _)| |destruct (_ || _)];
      unfold br_inv; cbn; repeat split; try lra; try assumption; try (apply Hev; assumption); apply Hall; assumption.
Qed.

Lemma br_loop_inv f lo hi tol : 0 < tol -> forall fuel count s s', br_inv f lo hi s ->
  br_loop f fuel tol count s = Some s' -> br_inv f lo hi s'.
Proof.
  intros Ht. induction fuel as [|fuel IH]; intros count s s' Hs E; [discriminate|].
  cbn [br_loop] in E. destruct (br_done tol s) eqn:Ed; [injection E as <-; exact Hs|].
  pose proof (br_step_inv f lo hi tol s Ht Hs Ed) as Hs'.
  destruct (Z.eqb (dec32 count) 0); [injection E as <-; exact Hs'|]. eapply IH; eassumption.
Qed.

Lemma brent_correct f fuel lo hi tol maxiters r evals : lo <= hi -> 0 < tol ->
  minimizeBrent f fuel lo hi tol maxiters = Some (r, evals) ->
  lo <= r <= hi /\ In r evals /\ In hi evals /\ forall e, In e evals -> lo <= e <= hi /\ f r <= f e.
Proof.
  intros H Ht. unfold minimizeBrent.
  destruct (br_loop f fuel tol maxiters (br_init f lo hi)) as [s|] eqn:E; [|discriminate].
  intros Hr. injection Hr as <- <-.
  assert (H0 : br_inv f lo hi (br_init f lo hi)).
  { unfold br_inv, br_init. cbn. repeat split; try lra; try tauto; destruct H0 as [<-|[]]; lra. }
  destruct (br_loop_inv f lo hi tol Ht _ _ _ _ H0 E) as (H1 & H2 & H3 & H4 & H5 & H5' & H6).
  split; [apply (H6 _ H5)|]. repeat split; try assumption; apply H6; assumption.
Qed.

(** Budget, for any number type *)
Definition budget (maxiters : Z) : Z := if Z.eqb maxiters 0 then 2 ^ 32 else maxiters.

Lemma br_step_evals {T} {N : Num T} (f : T -> T) tol s :
  length (br_evals (br_step f tol s)) = S (length (br_evals s)).
Proof.
  unfold br_step. destruct (br_delta_new tol s) as [dl dl2].
  destruct (nleb _ _); [|destruct (_ || _); [|destruct (_ || _)]]; cbn; rewrite app_length; cbn; lia.
Qed.

Lemma dec32_budget c : (0 <= c < 2 ^ 32)%Z -> dec32 c = (budget c - 1)%Z.
Proof.
  intros H. unfold dec32, budget. destruct (Z.eqb_spec c 0) as [->|Hc]; [reflexivity|].
  apply Z.mod_small. lia.
Qed.

Lemma br_loop_budget {T} {N : Num T} (f : T -> T) tol : forall fuel c s, (0 <= c < 2 ^ 32)%Z ->
  (match br_loop f fuel tol c s with
   | Some s' => (Z.of_nat (length (br_evals s')) <= Z.of_nat (length (br_evals s)) + budget c)%Z
   | None => (Z.of_nat fuel < budget c)%Z
   end).
Proof.
  induction fuel as [|fuel IH]; intros c s Hc; cbn [br_loop].
  - unfold budget. destruct (Z.eqb_spec c 0); cbn; lia.
  - assert (Hb : (1 <= budget c <= 2 ^ 32)%Z) by (unfold budget; destruct (Z.eqb_spec c 0); lia).
    destruct (br_done tol s); [lia|]. rewrite (dec32_budget c Hc).
    destruct (Z.eqb_spec (budget c - 1) 0) as [E|E].
    + rewrite br_step_evals. lia.
    + specialize (IH (budget c - 1)%Z (br_step f tol s) ltac:(lia)).
      assert (Hb' : budget (budget c - 1) = (budget c - 1)%Z).
      { unfold budget at 1. destruct (Z.eqb_spec (budget c - 1) 0); [contradiction|reflexivity]. }
      rewrite Hb' in IH. destruct (br_loop f fuel tol (budget c - 1) (br_step f tol s)).
      * rewrite br_step_evals in IH. lia.
      * lia.
Qed.

Lemma brent_budget {T} {N : Num T} (f : T -> T) fuel lo hi tol maxiters r evals : (0 <= maxiters < 2 ^ 32)%Z ->
  minimizeBrent f fuel lo hi tol maxiters = Some (r, evals) ->
  (Z.of_nat (length evals) <= 1 + budget maxiters)%Z.
Proof.
  intros Hm. unfold minimizeBrent. pose proof (br_loop_budget f tol fuel maxiters (br_init f lo hi) Hm) as H.
  destruct (br_loop f fuel tol maxiters (br_init f lo hi)) as [s|]; [|discriminate].
  intros E; injection E as <- <-. exact H.
Qed.

Lemma brent_terminates {T} {N : Num T} (f : T -> T) fuel lo hi tol maxiters : (0 <= maxiters < 2 ^ 32)%Z ->
  (budget maxiters <= Z.of_nat fuel)%Z -> minimizeBrent f fuel lo hi tol maxiters <> None.
Proof.
  intros Hm Hf. unfold minimizeBrent. pose proof (br_loop_budget f tol fuel maxiters (br_init f lo hi) Hm) as H.
  destruct (br_loop f fuel tol maxiters (br_init f lo hi)) as [s|]; [discriminate|lia].
Qed.

(** On a unimodal function the bracket keeps the minimiser. *)
Lemma br_u_apart tol (s : @br_state R) : 0 < tol -> br_u tol s <> br_x s.
Proof.
  intros Ht. pose proof (br_fract1_pos tol s Ht) as Hf1. unfold br_u.
  set (d := fst (br_delta_new tol s)). clearbody d. set (f1 := br_fract1 tol s) in *. clearbody f1.
  destruct (ngeb (nabs d) f1) eqn:E; [apply rgeb_true in E; cbn in E|].
  - cbn. intros H. assert (d = 0) by lra. subst d. rewrite Rabs_R0 in E. lra.
  - destruct (ngtb d nzero); cbn; rewrite (Rabs_right f1) by lra; intro; lra.
Qed.

Lemma br_step_bracket f lo hi m tol s : 0 < tol -> unimodal f lo hi m -> br_inv f lo hi s -> br_done tol s = false ->
  br_min s <= m <= br_max s -> br_min (br_step f tol s) <= m <= br_max (br_step f tol s).
Proof.
  intros Ht (Hm & Hdec & Hinc) (H1 & H2 & H3 & H4 & _) Hd Hb.
  pose proof (br_u_inside tol s Ht H3 Hd) as Hu. pose proof (br_u_apart tol s Ht) as Hne.
  unfold br_step. destruct (br_delta_new tol s) as [dl dl2]. set (u := br_u tol s) in *.
  destruct (nleb (f u) (br_fx s)) eqn:E; cbn in E; [apply rleb_true in E|apply rleb_false in E]; rewrite H4 in E.
  - destruct (ngeb u (br_x s)) eqn:E2; [apply rgeb_true in E2|apply rgeb_false in E2]; cbn [br_min br_max]; split; try lra.
    + destruct (Rle_lt_dec (br_x s) m) as [|K]; [assumption|].
      assert (f (br_x s) < f u) by (apply Hinc; lra). lra.
    + destruct (Rle_lt_dec m (br_x s)) as [|K]; [assumption|].
      assert (f (br_x s) < f u) by (apply Hdec; lra). lra.
  - destruct (nltb u (br_x s)) eqn:E2; cbn in E2; [apply rltb_true in E2|apply rltb_false in E2];
      destruct (_ || _); [|destruct (_ || _)| |destruct (_ || _)]; cbn [br_min br_max]; split; try lra.
    1-3: destruct (Rle_lt_dec u m) as [|K]; [assumption|]; assert (f u < f (br_x s)) by (apply Hinc; lra); lra.
    all: destruct (Rle_lt_dec m u) as [|K]; [assumption|]; assert (f u < f (br_x s)) by (apply Hdec; lra); lra.
Qed.

Lemma br_loop_bracket f lo hi m tol : 0 < tol -> unimodal f lo hi m -> forall fuel count s s',
  (0 <= count < 2 ^ 32)%Z -> br_inv f lo hi s -> br_min s <= m <= br_max s ->
  br_loop f fuel tol count s = Some s' ->
  br_min s' <= m <= br_max s' /\
  ((Z.of_nat (length (br_evals s')) < Z.of_nat (length (br_evals s)) + budget count)%Z -> br_done tol s' = true).
Proof.
  intros Ht Hu. induction fuel as [|fuel IH]; intros count s s' Hc Hs Hb E; [discriminate|].
  cbn [br_loop] in E. destruct (br_done tol s) eqn:Ed; [injection E as <-; tauto|].
  pose proof (br_step_inv f lo hi tol s Ht Hs Ed) as Hs'.
  pose proof (br_step_bracket f lo hi m tol s Ht Hu Hs Ed Hb) as Hb'.
  assert (Hbu : (1 <= budget count <= 2 ^ 32)%Z) by (unfold budget; destruct (Z.eqb_spec count 0); lia).
  rewrite (dec32_budget count Hc) in E.
  destruct (Z.eqb_spec (budget count - 1) 0) as [K|K].
  - injection E as <-. split; [assumption|]. rewrite br_step_evals. lia.
  - destruct (IH (budget count - 1)%Z _ _ ltac:(lia) Hs' Hb' E) as [HA HB]. split; [assumption|].
    intros HL. apply HB. rewrite br_step_evals.
    assert (Hb2 : budget (budget count - 1) = (budget count - 1)%Z).
    { unfold budget at 1. destruct (Z.eqb_spec (budget count - 1) 0); [contradiction|reflexivity]. }
    rewrite Hb2. lia.
Qed.

Lemma brent_unimodal f fuel lo hi m tol maxiters r evals : 0 < tol -> unimodal f lo hi m -> (1 <= maxiters < 2 ^ 32)%Z ->
  minimizeBrent f fuel lo hi tol maxiters = Some (r, evals) -> (Z.of_nat (length evals) <= maxiters)%Z ->
  Rabs (r - m) <= tol * (2 * Rabs r + 1 / 2).
Proof.
  intros Ht Hu Hm. unfold minimizeBrent.
  destruct (br_loop f fuel tol maxiters (br_init f lo hi)) as [s|] eqn:E; [|discriminate].
  intros Hr HL. injection Hr as <- <-. assert (Hlh : lo <= m <= hi) by apply Hu.
  assert (H0 : br_inv f lo hi (br_init f lo hi)).
  { unfold br_inv, br_init. cbn. repeat split; try lra; try tauto; destruct H as [<-|[]]; lra. }
  destruct (br_loop_bracket f lo hi m tol Ht Hu fuel maxiters _ _ ltac:(lia) H0 Hlh E) as [HB HD].
  assert (D : br_done tol s = true).
  { apply HD. cbn [br_init br_evals length]. unfold budget. destruct (Z.eqb_spec maxiters 0); lia. }
  unfold br_done, br_mid, br_fract2, br_fract1, two in D. cbn in D. apply rleb_true in D.
  destruct (br_loop_inv f lo hi tol Ht _ _ _ _ H0 E) as (_ & _ & H3 & _).
  destruct (abs_case (br_x s - m)) as [[? ->]|[? ->]];
  destruct (abs_case (br_x s - (br_min s + br_max s) / 2)) as [[? K]|[? K]]; rewrite K in D; lra.
Qed.

(** ** Golden section in binary64: a run that never ends *)
Definition gs_core {T} (s : @gs_state T) : T * T * T * T * T * T :=
  (gs_a s, gs_b s, gs_c s, gs_d s, gs_fc s, gs_fd s).

Lemma gs_step_core {T} {N : Num T} (g : T -> T) s s' : gs_core s = gs_core s' ->
  gs_core (gs_step g s) = gs_core (gs_step g s').
Proof.
  unfold gs_core. intros H. injection H as H1 H2 H3 H4 H5 H6.
  unfold gs_step. rewrite H1, H2, H3, H4, H5, H6. destruct (nltb _ _); reflexivity.
Qed.

Lemma gs_continue_core {T} {N : Num T} (tol : T) s s' : gs_core s = gs_core s' ->
  gs_continue tol s = gs_continue tol s'.
Proof. unfold gs_core. intros H. injection H as H1 H2 H3 H4 H5 H6. unfold gs_continue. rewrite H3, H4. reflexivity. Qed.

Lemma gs_loop_cycle {T} {N : Num T} (g : T -> T) tol s0 :
  gs_continue tol s0 = true -> gs_continue tol (gs_step g s0) = true ->
  gs_core (gs_step g (gs_step g s0)) = gs_core s0 ->
  forall fuel s, gs_core s = gs_core s0 \/ gs_core s = gs_core (gs_step g s0) ->
  gs_loop fuel g tol s = None.
Proof.
  intros C0 C1 Hc. induction fuel as [|fuel IH]; intros s [Hs|Hs]; cbn [gs_loop];
    rewrite (gs_continue_core tol _ _ Hs), ?C0, ?C1; try reflexivity; apply IH.
  - right. apply gs_step_core, Hs.
  - left. rewrite <- Hc. apply gs_step_core, Hs.
Qed.

(** first n iterations, all of which continue *)
Fixpoint gs_iter {T} {N : Num T} (n : nat) (g : T -> T) (tol : T) (s : gs_state) : option gs_state :=
  match n with
  | 0 => Some s
  | S n' => if gs_continue tol s then gs_iter n' g tol (gs_step g s) else None
  end.

Lemma gs_iter_loop {T} {N : Num T} (g : T -> T) tol : forall n s s', gs_iter n g tol s = Some s' ->
  (forall fuel, gs_loop fuel g tol s' = None) -> forall fuel, gs_loop fuel g tol s = None.
Proof.
  induction n as [|n IH]; intros s s' H Hl fuel; cbn [gs_iter] in H.
  - injection H as ->. apply Hl.
  - destruct (gs_continue tol s) eqn:E; [|discriminate]. destruct fuel; cbn [gs_loop]; rewrite E; [reflexivity|].
    eapply IH; eassumption.
Qed.

Definition bad_center : spec_float := nsub none1 phi.
Definition bad_f (x : spec_float) : spec_float := nabs (nsub x bad_center).
Definition bad_tol : spec_float := ndiv (nofZ 1) (nofZ (10 ^ 14)).

Lemma golden_b64_never_ends : forall fuel,
  minimizeGoldenSectionSearch bad_f fuel (nofZ 0) (nofZ 1) bad_tol = None.
Proof.
  intros fuel. unfold minimizeGoldenSectionSearch, goldenUnit.
  set (g := fun x => bad_f (gs_map (nofZ 0) (nofZ 1) x)).
  replace (nltb (nabs (nsub (nsub none1 phi) phi)) bad_tol) with false by (vm_compute; reflexivity).
  assert (H : exists s, gs_iter 100 g bad_tol (gs_init g) = Some s /\
     gs_continue bad_tol s = true /\ gs_continue bad_tol (gs_step g s) = true /\
     gs_core (gs_step g (gs_step g s)) = gs_core s).
  { exists (match gs_iter 100 g bad_tol (gs_init g) with Some s => s | None => gs_init g end).
    vm_compute. repeat split; reflexivity. }
  destruct H as (s & H1 & H2 & H3 & H4).
  rewrite (gs_iter_loop g bad_tol _ _ _ H1); [reflexivity|].
  intros fuel'. apply (gs_loop_cycle g bad_tol s H2 H3 H4). left. reflexivity.
Qed.
