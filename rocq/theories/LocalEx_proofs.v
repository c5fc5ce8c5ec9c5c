(** A problem for C87: min x0^2/2 + x0^3/6 + x1^2/2 + x2 subject to x0 + x1 = 0 and x2 >= 0, with its solution at the
    origin, where x2 is held. *)
From Coq Require Import List Arith Bool Reals Lra Lia.
From Verif Require Import Num Num_facts Wrapper_model Wrapper_spec Wrapper_proofs P_Wrapper Status_spec End_spec SensW_spec SensWEx_proofs Converge_spec.
Import ListNotations.
Local Open Scope R_scope.

Definition f88 : ofun R := fun x p c r =>
  ORes (at_ x 0 * at_ x 0 / 2 + at_ x 0 * at_ x 0 * at_ x 0 / 6 + at_ x 1 * at_ x 1 / 2 + at_ x 2)
    (fun j => if j =? 0 then at_ x 0 + at_ x 0 * at_ x 0 / 2 else if j =? 1 then at_ x 1 else 1)
    (fun i j => if (i =? 0) && (j =? 0) then 1 + at_ x 0 else if (i =? 1) && (j =? 1) then 1 else 0) (o_fxp r) (o_fxc r) true false true.
Definition P88 : problem R xreal := Problem (Dims 3 0 1 0 0 0 0) None (Some f88) (Some cfn0) (Some cfn0) (Some cfn0)
  (fun i j => if j <? 2 then 1 else 0) mzeros mzeros mzeros [0] [] [XNInf; XNInf; XF 0] [XPInf; XPInf; XPInf] [] [] [] mzeros mzeros.
Definition a88 : upoint := UPoint [0; 0; 0] [] [] [] [0] [] [] [].

Lemma Rabs_le_between a b : Rabs a <= b -> - b <= a <= b.
Proof. unfold Rabs. destruct Rcase_abs; lra. Qed.
Ltac absb := repeat match goal with H : Rabs ?t <= _ |- _ => apply Rabs_le_between in H end.
Lemma Rabs_le_of a b : - b <= a <= b -> Rabs a <= b.
Proof. unfold Rabs. destruct Rcase_abs; lra. Qed.

Lemma held88 j : (j < 3)%nat -> (held P88 a88 j <-> j = 2%nat).
Proof.
  intros Hj. unfold held, user_stability. destruct j as [|[|[|j]]]; [| | |lia]; cbn; split; try discriminate.
  - intros [[H _]|[H _]]; discriminate.
  - intros [[H _]|[H _]]; discriminate.
  - intros _. reflexivity.
  - intros _. left. split; [reflexivity|]. lra.
Qed.
(** the points near the solution *)
Lemma near88 r b : near P88 a88 r b -> exists u v y, b = UPoint [u; v; 0] [] [] [] [y] [] [] [] /\ Rabs u <= r /\ Rabs v <= r /\ Rabs y <= r.
Proof.
  intros ((S1 & S2 & S3 & S4 & S5 & S6 & S7 & S8) & (B1 & _ & _ & _ & B5 & _) & H1 & _).
  destruct b as [x bg hg p ye yg ze zg]. cbn [ptx ptp ptbg pthg ptye ptyg ptze ptzg P88 p_dims d_x d_p d_be d_bg d_he d_hg] in *.
  destruct x as [|u [|v [|s [|]]]]; try discriminate S1. destruct ye as [|y [|]]; try discriminate S5.
  destruct p; [|discriminate S2]. destruct bg; [|discriminate S3]. destruct hg; [|discriminate S4]. destruct yg; [|discriminate S6].
  destruct ze; [|discriminate S7]. destruct zg; [|discriminate S8].
  specialize (H1 2%nat ltac:(lia) (proj2 (held88 2%nat ltac:(lia)) eq_refl)). cbn in H1. subst s.
  exists u, v, y. split; [reflexivity|].
  pose proof (B1 0%nat ltac:(lia)) as C1. pose proof (B1 1%nat ltac:(lia)) as C2. pose proof (B5 0%nat ltac:(lia)) as C3.
  cbn in C1, C2, C3. unfold at_ in C1, C2, C3. cbn in C1, C2, C3. rewrite Rminus_0_r in C1, C2, C3. tauto.
Qed.
Lemma kkt88 : user_kkt P88 (ptx a88) (ptp a88) (ptye a88) (ptyg a88) (ptze a88) (ptzg a88).
Proof.
  unfold user_kkt, user_feasible. cbn [P88 p_dims d_x d_p d_be d_bg d_he d_hg a88 ptx ptp ptye ptyg ptze ptzg].
  repeat match goal with |- _ /\ _ => split end; intros i Hi; try (cbn in Hi; exfalso; lia).
  - assert (i = 0%nat) as -> by lia. unfold at_, lin. cbn. unfold at_. cbn. lra.
  - unfold at_, bd. cbn. cbn in Hi. destruct i as [|[|[|i]]]; [| | |lia]; (split; try reflexivity). apply xle; lra.
  - unfold at_, bd. destruct i as [|[|[|i]]]; [| | |lia]; cbn; unfold at_; cbn.
    + left. lra.
    + left. lra.
    + right. left. split; [reflexivity|]. lra.
Qed.
Lemma licq88 c : near P88 a88 (/ 12) c -> licq P88 (ptx c) (ptbg c) (pthg c) (ptp c).
Proof.
  intros N. destruct (near88 _ _ N) as (u & v & y & -> & _). intros a b e g _ _ H. split; [|split; [|split]]; intros i Hi; cbn in Hi; try lia.
  assert (i = 0%nat) as -> by lia. specialize (H 1%nat). cbn in H. rewrite <- H; [lra|lia|].
  unfold at_bound, bd, at_. cbn. intros [E|E]; discriminate.
Qed.
Lemma conditioned88 : conditioned P88 a88 (3 / 2).
Proof.
  intros t eps H1 H2 _ H4 _ _ _ _ _. cbn [P88 p_dims d_x d_p d_be d_bg d_he d_hg] in *.
  pose proof (H1 2%nat ltac:(lia) (proj2 (held88 2%nat ltac:(lia)) eq_refl)) as D2.
  assert (NH : forall j, (j < 2)%nat -> ~ held P88 a88 j) by (intros j Hj H; apply (held88 j ltac:(lia)) in H; lia).
  pose proof (H2 0%nat ltac:(lia) (NH 0%nat ltac:(lia))) as D0. pose proof (H2 1%nat ltac:(lia) (NH 1%nat ltac:(lia))) as D1.
  pose proof (H4 0%nat ltac:(lia)) as D3. unfold lhs_x, at_f in D0, D1. unfold lhs_be in D3. cbn in D0, D1, D3. unfold at_ in D0, D1, D3. cbn in D0, D1, D3.
  absb. unfold bounded. cbn [P88 p_dims d_x d_p d_be d_bg d_he d_hg].
  repeat match goal with |- _ /\ _ => split end; intros i Hi; try (exfalso; lia); apply Rabs_le_of.
  - destruct i as [|[|[|i]]]; [| | |lia]; rewrite ?D2; lra.
  - assert (i = 0%nat) as -> by lia. lra.
Qed.
Lemma sq_le u r : Rabs u <= r -> 0 <= u * u <= r * r.
Proof.
  intros H. split; [apply Rle_0_sqr|]. rewrite <- (Rabs_right (u * u)); [|apply Rle_ge, Rle_0_sqr]. rewrite Rabs_mult.
  apply Rmult_le_compat; auto using Rabs_pos.
Qed.
Lemma smooth88 : smooth P88 a88 1 0 (/ 12).
Proof.
  intros r b Hr NB. destruct (near88 _ _ NB) as (u & v & y & -> & Bu & Bv & By). cbn [P88 p_dims d_x d_p d_be d_bg d_he d_hg] in *.
  repeat match goal with |- _ /\ _ => split end; try (intros i Hi; exfalso; lia).
  - intros j Hj. pose proof (sq_le _ _ Bu). apply Rabs_le_of. destruct j as [|[|[|j]]]; [| | |lia]; cbn; unfold at_; cbn; lra.
  - intros j Hj. cbn. apply Rabs_le_of. lra.
  - intros delta t BT. repeat match goal with |- _ /\ _ => split end; try (intros i Hi; exfalso; lia).
    intros j Hj. unfold lhs_x, at_f. assert (T : Rabs (u * dx t 0%nat) <= r * delta).
    { rewrite Rabs_mult. apply Rmult_le_compat; auto using Rabs_pos. apply (proj1 BT). cbn. lia. }
    absb. apply Rabs_le_of. destruct j as [|[|[|j]]]; [| | |lia]; cbn; unfold at_; cbn; try lra.
Qed.
Lemma lipschitz88 : lipschitz P88 a88 3 (/ 12).
Proof.
  intros r b Hr NB. destruct (near88 _ _ NB) as (u & v & y & -> & Bu & Bv & By). cbn [P88 p_dims d_x d_p d_be d_bg d_he d_hg] in *.
  repeat match goal with |- _ /\ _ => split end; try (intros i Hi; exfalso; lia).
  - intros j Hj. pose proof (sq_le _ _ Bu). assert (r * r <= r) by nra. absb. apply Rabs_le_of. unfold stab, user_stability.
    destruct j as [|[|[|j]]]; [| | |lia]; cbn; unfold at_; cbn; lra.
  - intros i Hi. assert (i = 0%nat) as -> by lia. absb. apply Rabs_le_of. unfold left_be, lin. cbn. unfold at_. cbn. lra.
Qed.
Lemma margins88 : margins P88 a88 (/ 2).
Proof.
  unfold margins. cbn [P88 p_dims d_x d_p d_be d_bg d_he d_hg].
  split; [|split; [|split; [|split]]]; [| |intros i Hi; exfalso; lia|intros i Hi; exfalso; lia|intros i s Hi; exfalso; lia].
  - intros j Hj H. apply held88 in H; [|exact Hj]. subst j. unfold stab, user_stability. cbn. unfold at_. cbn. rewrite Rabs_right; lra.
  - intros j s Hj H _. rewrite held88 in H by exact Hj. destruct j as [|[|[|j]]]; [| |lia|lia]; unfold bd, at_bound; cbn.
    + repeat split; intros [E|E]; discriminate.
    + repeat split; intros [E|E]; discriminate.
Qed.
Lemma bases88 f1 f2 f3 oAx oAp obc M : update_master f1 f2 f3 oAx oAp obc P88 = Some M -> bases P88 a88 M 1 (/ 2 ^ 52) 1 (/ 12).
Proof.
  intros U b jb V NB X nw LJ _ IV IB. subst nw X. cbn [P88 p_dims d_x d_p d_be d_bg d_he d_hg] in *. cbn [Nat.add] in *.
  destruct (near88 _ _ NB) as (u & v & y & -> & Bu & Bv & By).
  assert (W : forall X j, (j < 3)%nat -> cWx M X [] 0 j = if j <? 2 then 1 else 0).
  { intros X j Hj. rewrite (Meq _ _ _ _ _ _ _ _ U). unfold cWx. cbn [ms_Ax ms_ny]. unfold master_Ax, mresize. destruct (_ =? m_rows oAx * m_cols oAx); destruct j as [|[|[|j]]]; try lia; reflexivity. }
  assert (T : forall X, ctarget M X [] 0 = 0) by (intros X; rewrite (Meq _ _ _ _ _ _ _ _ U); reflexivity).
  assert (E : ms_nx M = 3%nat /\ ms_np M = 0%nat /\ (ms_ny M + ms_nz M)%nat = 1%nat) by (rewrite (Meq _ _ _ _ _ _ _ _ U); repeat split).
  destruct E as (E1 & E2 & E3).
  destruct jb as [|j [|]]; try discriminate LJ.
  destruct (IB j (or_introl eq_refl)) as (Hj & NA). specialize (IV 0%nat 0%nat ltac:(cbn; lia) ltac:(cbn; lia)).
  rewrite E1 in Hj. rewrite E3 in IV. cbn [sum nth ptx ptbg pthg ptp app Nat.eqb] in IV. cbn [ptx ptbg pthg ptp app] in *.
  assert (V0 : V 0%nat 0%nat = 1 /\ cWx M [u; v; 0] [] 0 j = 1).
  { rewrite W in * by lia. destruct (Nat.ltb_spec j 2); [lra|exfalso; lra]. }
  destruct V0 as (V0 & W0). absb. split; intros i Hi; assert (i = 0%nat) as -> by lia; cbn [sum nth].
  - rewrite V0, Rabs_R1. split; [lra|]. unfold row_room. rewrite E3. cbn [sum]. rewrite V0, Rabs_R1. unfold cmag. rewrite E1, E2, T. cbn [sum].
    rewrite !W by lia. cbn [Nat.ltb Nat.leb]. rewrite Rabs_R1, Rabs_R0. unfold at_. cbn [nth].
    assert (Rabs u <= / 12 /\ Rabs v <= / 12) as (B1 & B2) by (split; apply Rabs_le_of; lra).
    rewrite <- (Rmult_1_r (/ 2 ^ 52)) at 2. apply Rmult_le_compat_l; [|lra]. left. apply Rinv_0_lt_compat, pow_lt. lra.
  - rewrite W0, Rabs_R1. lra.
Qed.
