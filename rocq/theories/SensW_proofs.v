(** Proofs for C86 in plain real analysis: the rows of the master problem in terms of the user's problem, and
    the derivatives of a path of solutions. *)
From Coq Require Import List Arith Bool Reals Lia Lra.
From Coquelicot Require Import Coquelicot.
From Verif Require Import Num Wrapper_model Wrapper_spec Wrapper_proofs End_spec Near_proofs Indep_proofs Status_spec SensW_spec.
Import ListNotations.
Local Open Scope R_scope.

Lemma sum_minus n f g : sum n (fun i => f i - g i) = sum n f - sum n g.
Proof. induction n as [|n IH]; cbn; [lra|]. rewrite IH. lra. Qed.
Lemma sum_mul_minus n A f g : sum n (fun i => A i * (f i - g i)) = sum n (fun i => A i * f i) - sum n (fun i => A i * g i).
Proof. rewrite <- sum_minus. apply sum_ext. intros. lra. Qed.

(** ** The rows of the master problem *)
Section Rows.
Variables (f1 f2 f3 : nat -> R) (oAx oAp obc : mat R) (P : problem R xreal) (M : master R xreal).
Hypothesis U : update_master f1 f2 f3 oAx oAp obc P = Some M.
Let d := p_dims P.
Hypothesis Z : forall i j, (i < d_be d)%nat -> (d_x d <= j < d_x d + d_bg d)%nat -> mget (mresize f1 oAx (ny d) (nxbar d)) i j = 0.
Variables (a : upoint).
Hypothesis (Lx : length (ptx a) = d_x d) (Lbg : length (ptbg a) = d_bg d) (Lhg : length (pthg a) = d_hg d).
Let X := ptx a ++ ptbg a ++ pthg a.
Let p := ptp a.
Let LX : length X = nxbar d. Proof. unfold X, nxbar. rewrite !app_length. lia. Qed.

Lemma split_nx (g : nat -> R) : sum (nxbar d) g = sum (d_x d) g + sum (d_bg d) (fun i => g (d_x d + i)%nat) + sum (d_hg d) (fun i => g (d_x d + d_bg d + i)%nat).
Proof. unfold nxbar. rewrite !sum_split. reflexivity. Qed.

Lemma row_be l g : (l < d_be d)%nat -> sum (nxbar d) (fun j => cWx M X p l j * g j) = sum (d_x d) (fun j => p_Aex P l j * g j).
Proof.
  intros Hl. rewrite split_nx, (sum_zero (d_bg d)), (sum_zero (d_hg d)).
  - rewrite !Rplus_0_r. apply sum_ext. intros j Hj. unfold X. rewrite (cWx_A _ _ _ _ _ _ _ _ U Z _ _ _ _ Lx Lbg Lhg) by (fold d; unfold ny, nxbar; lia).
    unfold documented_Ax. fold d. bsolve. reflexivity.
  - intros i Hi. unfold X. rewrite (cWx_A _ _ _ _ _ _ _ _ U Z _ _ _ _ Lx Lbg Lhg) by (fold d; unfold ny, nxbar; lia).
    unfold documented_Ax. fold d. bsolve. cbn. lra.
  - intros i Hi. unfold X. rewrite (cWx_A _ _ _ _ _ _ _ _ U Z _ _ _ _ Lx Lbg Lhg) by (fold d; unfold ny, nxbar; lia).
    unfold documented_Ax. fold d. bsolve. cbn. lra.
Qed.
Lemma row_bg l g : (l < d_bg d)%nat -> sum (nxbar d) (fun j => cWx M X p (d_be d + l) j * g j) = sum (d_x d) (fun j => p_Agx P l j * g j) + g (d_x d + l)%nat.
Proof.
  intros Hl. rewrite split_nx, (sum_delta (d_bg d) l), (sum_zero (d_hg d)).
  - rewrite Rplus_0_r. f_equal.
    + apply sum_ext. intros j Hj. unfold X. rewrite (cWx_A _ _ _ _ _ _ _ _ U Z _ _ _ _ Lx Lbg Lhg) by (fold d; unfold ny, nxbar; lia).
      unfold documented_Ax. fold d. bsolve. do 2 f_equal. lia.
    + unfold X. rewrite (cWx_A _ _ _ _ _ _ _ _ U Z _ _ _ _ Lx Lbg Lhg) by (fold d; unfold ny, nxbar; lia).
      unfold documented_Ax. fold d. bsolve. cbn. lra.
  - intros i Hi. unfold X. rewrite (cWx_A _ _ _ _ _ _ _ _ U Z _ _ _ _ Lx Lbg Lhg) by (fold d; unfold ny, nxbar; lia).
    unfold documented_Ax. fold d. bsolve. cbn. lra.
  - exact Hl.
  - intros i Hi Hne. unfold X. rewrite (cWx_A _ _ _ _ _ _ _ _ U Z _ _ _ _ Lx Lbg Lhg) by (fold d; unfold ny, nxbar; lia).
    unfold documented_Ax. fold d. bsolve; cbn; lra.
Qed.
Lemma row_he l g : (l < d_he d)%nat -> sum (nxbar d) (fun j => cWx M X p (ny d + l) j * g j) = sum (d_x d) (fun j => c_ddx (at_he P a) l j * g j).
Proof.
  intros Hl. rewrite split_nx, (sum_zero (d_bg d)), (sum_zero (d_hg d)).
  - rewrite !Rplus_0_r. apply sum_ext. intros j Hj. unfold X. rewrite (cWx_J _ _ _ _ _ _ _ _ U _ _ _ _ Lx Lbg Lhg) by (fold d; unfold nz, nxbar; lia).
    fold d. bsolve. reflexivity.
  - intros i Hi. unfold X. rewrite (cWx_J _ _ _ _ _ _ _ _ U _ _ _ _ Lx Lbg Lhg) by (fold d; unfold nz, nxbar; lia).
    fold d. bsolve. lra.
  - intros i Hi. unfold X. rewrite (cWx_J _ _ _ _ _ _ _ _ U _ _ _ _ Lx Lbg Lhg) by (fold d; unfold nz, nxbar; lia).
    fold d. bsolve. lra.
Qed.
Lemma row_hg l g : (l < d_hg d)%nat -> sum (nxbar d) (fun j => cWx M X p (ny d + (d_he d + l)) j * g j) =
  sum (d_x d) (fun j => c_ddx (at_hg P a) l j * g j) + g (d_x d + d_bg d + l)%nat.
Proof.
  intros Hl. rewrite split_nx, (sum_zero (d_bg d)), (sum_delta (d_hg d) l).
  - rewrite Rplus_0_r. f_equal.
    + apply sum_ext. intros j Hj. unfold X. rewrite (cWx_J _ _ _ _ _ _ _ _ U _ _ _ _ Lx Lbg Lhg) by (fold d; unfold nz, nxbar; lia).
      fold d. bsolve. unfold at_hg. do 2 f_equal. lia.
    + unfold X. rewrite (cWx_J _ _ _ _ _ _ _ _ U _ _ _ _ Lx Lbg Lhg) by (fold d; unfold nz, nxbar; lia).
      fold d. bsolve. lra.
  - exact Hl.
  - intros i Hi Hne. unfold X. rewrite (cWx_J _ _ _ _ _ _ _ _ U _ _ _ _ Lx Lbg Lhg) by (fold d; unfold nz, nxbar; lia).
    fold d. bsolve; lra.
  - intros i Hi. unfold X. rewrite (cWx_J _ _ _ _ _ _ _ _ U _ _ _ _ Lx Lbg Lhg) by (fold d; unfold nz, nxbar; lia).
    fold d. bsolve. lra.
Qed.
Lemma cWp_rows l k : (l < ny d + nz d)%nat -> (k < d_p d)%nat -> cWp M X p l k =
  if (l <? d_be d)%nat then p_Aep P l k else if (l <? ny d)%nat then p_Agp P (l - d_be d) k
  else if (l <? ny d + d_he d)%nat then c_ddp (at_he P a) (l - ny d) k else c_ddp (at_hg P a) (l - ny d - d_he d) k.
Proof.
  intros Hl Hk. unfold cWp. rewrite (Meq _ _ _ _ _ _ _ _ U). cbn [ms_ny ms_h ms_c ms_Ap]. fold d.
  destruct (Nat.ltb_spec l (ny d)).
  - rewrite master_Ap_spec by (try assumption; fold d; lia). unfold ny in *. bsolve; reflexivity.
  - rewrite master_h_ddp by (try assumption; lia). unfold X. rewrite head_app by exact Lx. unfold ny, nz in *. bsolve; reflexivity.
Qed.
(** the objective function and v do not depend on the slacks *)
Lemma row_fxx j g : (j < nxbar d)%nat -> sum (nxbar d) (fun i => o_fxx (ocall (ms_f M) X p (ms_c M) ozero) j i * g i) =
  if (j <? d_x d)%nat then sum (d_x d) (fun i => o_fxx (at_f P a) j i * g i) else 0.
Proof.
  intros Hj. rewrite (Meq _ _ _ _ _ _ _ _ U). cbn [ms_f ms_c]. unfold ocall at 1, master_f. cbn [o_fxx]. fold d.
  unfold X. rewrite head_app by exact Lx.
  destruct (Nat.ltb_spec j (d_x d)) as [H|H].
  - rewrite split_nx, (sum_zero (d_bg d)), (sum_zero (d_hg d)).
    + rewrite !Rplus_0_r. apply sum_ext. intros i Hi. bsolve. reflexivity.
    + intros i Hi. bsolve. cbn. lra.
    + intros i Hi. bsolve. cbn. lra.
  - apply sum_zero. intros i Hi. cbn [andb]. cbn. lra.
Qed.
Lemma row_fxp j k : o_fxp (ocall (ms_f M) X p (ms_c M) ozero) j k = if (j <? d_x d)%nat then o_fxp (at_f P a) j k else 0.
Proof.
  rewrite (Meq _ _ _ _ _ _ _ _ U). cbn [ms_f ms_c]. unfold ocall at 1, master_f. cbn [o_fxp]. fold d.
  unfold X. rewrite head_app by exact Lx. reflexivity.
Qed.
Lemma row_fxc j k : o_fxc (ocall (ms_f M) X p (ms_c M) ozero) j k = if (j <? d_x d)%nat then o_fxc (at_f P a) j k else 0.
Proof.
  rewrite (Meq _ _ _ _ _ _ _ _ U). cbn [ms_f ms_c]. unfold ocall at 1, master_f. cbn [o_fxc]. fold d.
  unfold X. rewrite head_app by exact Lx. reflexivity.
Qed.
Lemma row_vx l g : (l < d_p d)%nat -> sum (nxbar d) (fun i => c_ddx (ccall (ms_v M) X p (ms_c M) czero) l i * g i) = sum (d_x d) (fun i => c_ddx (at_v P a) l i * g i).
Proof.
  intros Hl. rewrite (Meq _ _ _ _ _ _ _ _ U). cbn [ms_v ms_c]. fold d.
  change (ccall (master_v d (uv P)) X p (p_c P) czero) with (value (master_v d (uv P)) X p (p_c P)).
  rewrite split_nx, (sum_zero (d_bg d)), (sum_zero (d_hg d)).
  - rewrite !Rplus_0_r. apply sum_ext. intros i Hi. rewrite master_v_ddx by (try assumption; unfold nxbar; lia).
    bsolve. unfold X. rewrite head_app by exact Lx. reflexivity.
  - intros i Hi. rewrite master_v_ddx by (try assumption; unfold nxbar; lia). bsolve. cbn. lra.
  - intros i Hi. rewrite master_v_ddx by (try assumption; unfold nxbar; lia). bsolve. cbn. lra.
Qed.
Lemma row_vpc l k : (l < d_p d)%nat -> c_ddp (ccall (ms_v M) X p (ms_c M) czero) l k = c_ddp (at_v P a) l k /\
  c_ddc (ccall (ms_v M) X p (ms_c M) czero) l k = c_ddc (at_v P a) l k.
Proof.
  intros Hl. rewrite (Meq _ _ _ _ _ _ _ _ U). cbn [ms_v ms_c]. fold d.
  change (ccall (master_v d (uv P)) X p (p_c P) czero) with (value (master_v d (uv P)) X p (p_c P)).
  destruct (master_v_rest d X p (p_c P) LX (uv P) l k Hl) as (-> & -> & _).
  unfold X. rewrite head_app by exact Lx. split; reflexivity.
Qed.
Lemma row_hc l k : (l < nz d)%nat -> c_ddc (ccall (ms_h M) X p (ms_c M) czero) l k =
  if (l <? d_he d)%nat then c_ddc (at_he P a) l k else c_ddc (at_hg P a) (l - d_he d) k.
Proof.
  intros Hl. rewrite (Meq _ _ _ _ _ _ _ _ U). cbn [ms_h ms_c]. fold d.
  change (ccall ?h X p (p_c P) czero) with (value h X p (p_c P)).
  rewrite master_h_ddc by (try assumption; lia). unfold X. rewrite head_app by exact Lx. reflexivity.
Qed.
Lemma row_bc l k : (l < ny d)%nat -> (k < d_c d)%nat -> mget (ms_bc M) l k = if (l <? d_be d)%nat then p_bec P l k else p_bgc P (l - d_be d) k.
Proof. intros Hl Hk. rewrite (Meq _ _ _ _ _ _ _ _ U). cbn [ms_bc]. fold d. apply master_bc_spec; assumption. Qed.

(** ** The linearised optimality conditions of the master problem, for the directions vx, vp, vw *)
Definition master_tangent (fixed : nat -> Prop) (rx rp rw : nat -> R) (vx vp vw : nat -> R) : Prop :=
  (forall j, (j < nxbar d)%nat -> fixed j -> vx j = 0) /\
  (forall j, (j < nxbar d)%nat -> ~ fixed j ->
     sum (nxbar d) (fun i => o_fxx (ocall (ms_f M) X p (ms_c M) ozero) j i * vx i)
     + sum (d_p d) (fun k => o_fxp (ocall (ms_f M) X p (ms_c M) ozero) j k * vp k)
     + sum (ny d + nz d) (fun l => vw l * cWx M X p l j) = rx j) /\
  (forall l, (l < d_p d)%nat -> sum (nxbar d) (fun i => c_ddx (ccall (ms_v M) X p (ms_c M) czero) l i * vx i)
     + sum (d_p d) (fun k => c_ddp (ccall (ms_v M) X p (ms_c M) czero) l k * vp k) = rp l) /\
  (forall l, (l < ny d + nz d)%nat -> sum (nxbar d) (fun j => cWx M X p l j * vx j) + sum (d_p d) (fun k => cWp M X p l k * vp k) = rw l).
Definition dir_of (vx vp vw : nat -> R) : udir :=
  UDir vx vp (fun i => vx (d_x d + i)%nat) (fun i => vx (d_x d + d_bg d + i)%nat)
    vw (fun i => vw (d_be d + i)%nat) (fun i => vw (ny d + i)%nat) (fun i => vw (ny d + (d_he d + i))%nat).

Lemma tangent_user fixed rx rp rw vx vp vw :
  (forall j, (j < d_x d)%nat -> (fixed j <-> held P a j)) ->
  (forall i, (i < d_bg d)%nat -> (fixed (d_x d + i)%nat <-> bg_held a i)) ->
  (forall i, (i < d_hg d)%nat -> (fixed (d_x d + d_bg d + i)%nat <-> hg_held a i)) ->
  (forall j, (d_x d <= j < nxbar d)%nat -> rx j = 0) ->
  master_tangent fixed rx rp rw vx vp vw ->
  tangent_eqs P a rx rp rw (fun i => rw (d_be d + i)%nat) (fun i => rw (ny d + i)%nat) (fun i => rw (ny d + (d_he d + i))%nat) (dir_of vx vp vw).
Proof.
  intros F1 F2 F3 R0 (T1 & T2 & T3 & T4). unfold tangent_eqs, dir_of. cbn [dx dp dbg dhg dye dyg dze dzg]. fold d.
  repeat match goal with |- _ /\ _ => split end.
  - intros j Hj Hh. apply T1; [unfold nxbar; lia | apply F1; assumption].
  - intros j Hj Hh. assert (Hj' : (j < nxbar d)%nat) by (unfold nxbar; lia).
    rewrite <- (T2 j Hj') by (rewrite F1 by exact Hj; exact Hh).
    rewrite row_fxx by exact Hj'. bsolve.
    rewrite (sum_ext (d_p d) (fun k => o_fxp (ocall (ms_f M) X p (ms_c M) ozero) j k * vp k) (fun k => o_fxp (at_f P a) j k * vp k))
      by (intros k _; rewrite row_fxp; bsolve; reflexivity).
    unfold X. rewrite (user_col _ _ _ _ _ _ _ _ U Z _ _ _ _ Lx Lbg Lhg) by exact Hj. fold d. rewrite <- !Rplus_assoc.
    repeat (apply f_equal2; [|apply sum_ext; intros; unfold at_he, at_hg; rewrite Rmult_comm; reflexivity]). reflexivity.
  - intros l Hl. rewrite <- (T3 l Hl), row_vx by exact Hl. f_equal. apply sum_ext. intros k Hk.
    destruct (row_vpc l k Hl) as [-> _]. reflexivity.
  - intros i Hi. rewrite <- (T4 i) by (unfold ny; lia). rewrite row_be by exact Hi. f_equal. apply sum_ext. intros k Hk.
    rewrite cWp_rows by (try assumption; unfold ny; lia). bsolve. reflexivity.
  - intros i Hi. rewrite <- (T4 (d_be d + i)%nat) by (unfold ny; lia). rewrite row_bg by exact Hi.
    rewrite (sum_ext (d_p d) (fun k => cWp M X p (d_be d + i) k * vp k) (fun k => p_Agp P i k * vp k)); [lra|]. intros k Hk.
    rewrite cWp_rows by (try assumption; unfold ny; lia). unfold ny. bsolve. do 2 f_equal. lia.
  - intros i Hi. rewrite <- (T4 (ny d + i)%nat) by (unfold nz; lia). rewrite row_he by exact Hi. f_equal. apply sum_ext. intros k Hk.
    rewrite cWp_rows by (try assumption; unfold nz; lia). unfold ny. bsolve. do 2 f_equal. lia.
  - intros i Hi. rewrite <- (T4 (ny d + (d_he d + i))%nat) by (unfold nz; lia). rewrite row_hg by exact Hi.
    rewrite (sum_ext (d_p d) (fun k => cWp M X p (ny d + (d_he d + i)) k * vp k) (fun k => c_ddp (at_hg P a) i k * vp k)); [lra|]. intros k Hk.
    rewrite cWp_rows by (try assumption; unfold nz; lia). unfold ny. bsolve. do 2 f_equal. lia.
  - intros i Hi. split; intros H.
    + apply T1; [unfold nxbar; lia | apply F2; assumption].
    + assert (SB := slack_bg _ _ _ _ _ _ _ _ U Z _ _ _ p Lx Lbg Lhg vw i Hi). fold d in SB. fold X in SB. rewrite <- SB.
      assert (E := T2 (d_x d + i)%nat ltac:(unfold nxbar; lia) ltac:(rewrite F2 by exact Hi; exact H)).
      rewrite row_fxx in E by (unfold nxbar; lia).
      rewrite (sum_zero (d_p d)) in E by (intros k _; rewrite row_fxp; bsolve; lra).
      rewrite R0 in E by (unfold nxbar; lia). revert E. bsolve. lra.
  - intros i Hi. split; intros H.
    + apply T1; [unfold nxbar; lia | apply F3; assumption].
    + assert (SB := slack_hg _ _ _ _ _ _ _ _ U Z _ _ _ p Lx Lbg Lhg vw i Hi). fold d in SB. fold X in SB. rewrite <- SB.
      assert (E := T2 (d_x d + d_bg d + i)%nat ltac:(unfold nxbar; lia) ltac:(rewrite F3 by exact Hi; exact H)).
      rewrite row_fxx in E by (unfold nxbar; lia).
      rewrite (sum_zero (d_p d)) in E by (intros k _; rewrite row_fxp; bsolve; lra).
      rewrite R0 in E by (unfold nxbar; lia). revert E. bsolve. lra.
Qed.

(** a direction of which the user sees zeros is zero *)
Lemma dir_zero vx vp vw : same_dir d (dir_of vx vp vw) zero_dir ->
  (forall j, (j < nxbar d)%nat -> vx j = 0) /\ (forall k, (k < d_p d)%nat -> vp k = 0) /\ (forall l, (l < ny d + nz d)%nat -> vw l = 0).
Proof.
  unfold same_dir, dir_of, zero_dir. cbn [dx dp dbg dhg dye dyg dze dzg].
  intros (X1 & X2 & X3 & X4 & X5 & X6 & X7 & X8). split; [|split].
  - intros j Hj. destruct (lt_dec j (d_x d)) as [A1|A1]; [exact (X1 j A1)|].
    destruct (lt_dec j (d_x d + d_bg d)) as [A2|A2].
    + replace j with (d_x d + (j - d_x d))%nat by lia. apply X3. lia.
    + replace j with (d_x d + d_bg d + (j - d_x d - d_bg d))%nat by lia. apply X4. unfold nxbar in Hj. lia.
  - exact X2.
  - apply (all_rows P (ptx a) (ptbg a) (pthg a)); assumption.
Qed.
End Rows.

(** the equations see a direction only within the dimensions *)
Lemma tangent_ext P a rx rv rbe rbg rhe rhg s t : same_dir (p_dims P) s t -> tangent_eqs P a rx rv rbe rbg rhe rhg s -> tangent_eqs P a rx rv rbe rbg rhe rhg t.
Proof.
  intros (X1 & X2 & X3 & X4 & X5 & X6 & X7 & X8) (T1 & T2 & T3 & T4 & T5 & T6 & T7 & T8 & T9).
  assert (E : forall n (A f g : nat -> R), (forall i, (i < n)%nat -> f i = g i) -> sum n (fun i => A i * g i) = sum n (fun i => A i * f i))
    by (intros n A f g H; apply sum_ext; intros i Hi; rewrite H by exact Hi; reflexivity).
  unfold tangent_eqs. repeat match goal with |- _ /\ _ => split end; intros i Hi.
  - rewrite <- X1 by exact Hi. apply T1. exact Hi.
  - intros H. rewrite <- (T2 i Hi H). rewrite (E _ _ _ _ X1), (E _ _ _ _ X2), (E _ _ _ _ X5), (E _ _ _ _ X6), (E _ _ _ _ X7), (E _ _ _ _ X8). reflexivity.
  - rewrite <- (T3 i Hi), (E _ _ _ _ X1), (E _ _ _ _ X2). reflexivity.
  - rewrite <- (T4 i Hi), (E _ _ _ _ X1), (E _ _ _ _ X2). reflexivity.
  - rewrite <- (T5 i Hi), (E _ _ _ _ X1), (E _ _ _ _ X2), X3 by exact Hi. reflexivity.
  - rewrite <- (T6 i Hi), (E _ _ _ _ X1), (E _ _ _ _ X2). reflexivity.
  - rewrite <- (T7 i Hi), (E _ _ _ _ X1), (E _ _ _ _ X2), X4 by exact Hi. reflexivity.
  - rewrite <- X3, <- X6 by exact Hi. apply T8. exact Hi.
  - rewrite <- X4, <- X8 by exact Hi. apply T9. exact Hi.
Qed.

(** and the right-hand sides likewise *)
Lemma tangent_rhs P a rx rv rbe rbg rhe rhg rx' rv' rbe' rbg' rhe' rhg' t : let d := p_dims P in
  (forall j, (j < d_x d)%nat -> ~ held P a j -> rx j = rx' j) -> (forall l, (l < d_p d)%nat -> rv l = rv' l) ->
  (forall i, (i < d_be d)%nat -> rbe i = rbe' i) -> (forall i, (i < d_bg d)%nat -> rbg i = rbg' i) ->
  (forall i, (i < d_he d)%nat -> rhe i = rhe' i) -> (forall i, (i < d_hg d)%nat -> rhg i = rhg' i) ->
  tangent_eqs P a rx rv rbe rbg rhe rhg t -> tangent_eqs P a rx' rv' rbe' rbg' rhe' rhg' t.
Proof.
  intros d X1 X2 X3 X4 X5 X6 (T1 & T2 & T3 & T4 & T5 & T6 & T7 & T8 & T9).
  unfold tangent_eqs. fold d. repeat match goal with |- _ /\ _ => split end; try assumption; intros i Hi.
  - intros H. rewrite <- X1 by assumption. apply T2; assumption.
  - rewrite <- X2 by assumption. apply T3; assumption.
  - rewrite <- X3 by assumption. apply T4; assumption.
  - rewrite <- X4 by assumption. apply T5; assumption.
  - rewrite <- X5 by assumption. apply T6; assumption.
  - rewrite <- X6 by assumption. apply T7; assumption.
Qed.

(** two solutions of the equations agree *)
Lemma tangent_unique P a rx rv rbe rbg rhe rhg s t : unique_tangent P a ->
  tangent_eqs P a rx rv rbe rbg rhe rhg s -> tangent_eqs P a rx rv rbe rbg rhe rhg t -> same_dir (p_dims P) s t.
Proof.
  intros UT (S1 & S2 & S3 & S4 & S5 & S6 & S7 & S8 & S9) (T1 & T2 & T3 & T4 & T5 & T6 & T7 & T8 & T9).
  destruct (UT (UDir (fun i => dx s i - dx t i) (fun i => dp s i - dp t i) (fun i => dbg s i - dbg t i) (fun i => dhg s i - dhg t i)
    (fun i => dye s i - dye t i) (fun i => dyg s i - dyg t i) (fun i => dze s i - dze t i) (fun i => dzg s i - dzg t i)))
    as (X1 & X2 & X3 & X4 & X5 & X6 & X7 & X8).
  - unfold tangent_eqs. cbn [dx dp dbg dhg dye dyg dze dzg]. repeat match goal with |- _ /\ _ => split end; intros i Hi.
    + intros H. rewrite S1, T1 by assumption. lra.
    + intros H. specialize (S2 i Hi H). specialize (T2 i Hi H). rewrite !sum_mul_minus. lra.
    + specialize (S3 i Hi). specialize (T3 i Hi). rewrite !sum_mul_minus. lra.
    + specialize (S4 i Hi). specialize (T4 i Hi). rewrite !sum_mul_minus. lra.
    + specialize (S5 i Hi). specialize (T5 i Hi). rewrite !sum_mul_minus. lra.
    + specialize (S6 i Hi). specialize (T6 i Hi). rewrite !sum_mul_minus. lra.
    + specialize (S7 i Hi). specialize (T7 i Hi). rewrite !sum_mul_minus. lra.
    + destruct (S8 i Hi) as [A1 A2], (T8 i Hi) as [B1 B2]. split; intros H; [rewrite A1, B1 by exact H | rewrite A2, B2 by exact H]; lra.
    + destruct (S9 i Hi) as [A1 A2], (T9 i Hi) as [B1 B2]. split; intros H; [rewrite A1, B1 by exact H | rewrite A2, B2 by exact H]; lra.
  - unfold zero_dir in *. cbn [dx dp dbg dhg dye dyg dze dzg] in *.
    unfold same_dir. repeat match goal with |- _ /\ _ => split end; intros i Hi.
    + specialize (X1 i Hi). lra. + specialize (X2 i Hi). lra. + specialize (X3 i Hi). lra. + specialize (X4 i Hi). lra.
    + specialize (X5 i Hi). lra. + specialize (X6 i Hi). lra. + specialize (X7 i Hi). lra. + specialize (X8 i Hi). lra.
Qed.

(** ** Derivatives along a path *)
Lemma derive_sum n (f : nat -> R -> R) l t : (forall i, (i < n)%nat -> is_derive (f i) t (l i)) -> is_derive (fun s => sum n (fun i => f i s)) t (sum n l).
Proof.
  induction n as [|n IH]; intros H; cbn; [apply (is_derive_const 0 t)|].
  apply (is_derive_plus (fun s => sum n (fun i => f i s)) (f n)); [apply IH; intros; apply H; lia | apply H; lia].
Qed.
Lemma derive_const_loc (f : R -> R) t c l : locally t (fun s => f s = c) -> is_derive f t l -> l = 0.
Proof.
  intros H D. apply is_derive_unique in D. rewrite <- D. rewrite (Derive_ext_loc f (fun _ => c)) by exact H. apply Derive_const.
Qed.
Lemma derive_scale (A : R) (f : R -> R) t l : is_derive f t l -> is_derive (fun s => A * f s) t (A * l).
Proof. intros H. apply (is_derive_scal f t A l H). Qed.
Lemma derive_lin nx np Ax Ap (x p : R -> list R) vx vp i : moves nx x vx -> moves np p vp ->
  is_derive (fun t => lin nx np Ax Ap (x t) (p t) i) 0 (sum nx (fun j => Ax i j * vx j) + sum np (fun k => Ap i k * vp k)).
Proof.
  intros H1 H2. unfold lin. apply (is_derive_plus (fun t => sum nx (fun j => Ax i j * at_ (x t) j)) (fun t => sum np (fun k => Ap i k * at_ (p t) k)));
    apply derive_sum; intros j Hj; apply derive_scale; [apply H1 | apply H2]; exact Hj.
Qed.

Lemma deriv4 (f1 f2 f3 f4 f5 : R -> R) t l1 l2 l3 l4 l5 : is_derive f1 t l1 -> is_derive f2 t l2 -> is_derive f3 t l3 -> is_derive f4 t l4 -> is_derive f5 t l5 ->
  is_derive (fun s => f1 s + f2 s + f3 s + f4 s + f5 s) t (l1 + l2 + l3 + l4 + l5).
Proof.
  intros H1 H2 H3 H4 H5. apply (is_derive_plus (fun s => f1 s + f2 s + f3 s + f4 s) f5); [|exact H5].
  apply (is_derive_plus (fun s => f1 s + f2 s + f3 s) f4); [|exact H4].
  apply (is_derive_plus (fun s => f1 s + f2 s) f3); [|exact H3].
  apply (is_derive_plus f1 f2); assumption.
Qed.
Lemma derive_prod (f g : R -> R) t l m c : is_derive g t m -> is_derive f t l -> f t = c -> is_derive (fun s => f s * g s) t (l * g t + c * m).
Proof. intros Hg Hf <-. apply (is_derive_mult f g t l m Hf Hg). intros; apply Rmult_comm. Qed.
Lemma shifted_0 c k : (k < length c)%nat -> shifted c k 0 = c.
Proof.
  intros H. unfold shifted, at_. rewrite Rplus_0_r. rewrite <- (firstn_skipn k c) at 4. f_equal.
  revert k H. induction c as [|x c IH]; intros [|k] H; cbn in *; try lia; [reflexivity|]. apply IH. lia.
Qed.

Lemma path_tangent P k a path be bg t : (k < length (p_c P))%nat -> right_derivatives P k a -> steady_jacobians P k a -> solution_path P k a path be bg t -> c_tangent P a k t.
Proof.
  intros Hk (DF & DV & DE & DG) (JE & JG) (A0 & B1 & B2 & LX & LP & MB & MG & SO & M1 & M2 & M3 & M4 & M5 & M6 & M7 & M8).
  set (d := p_dims P) in *.
  assert (CH : forall g gx gp gc, derivatives_along P k a g gx gp gc ->
    is_derive (fun s => g (ptx (path s)) (ptp (path s)) (shifted (p_c P) k s)) 0 (sum (d_x d) (fun i => gx i * dx t i) + sum (d_p d) (fun l => gp l * dp t l) + gc)).
  { intros g gx gp gc H. apply (H (fun s => ptx (path s)) (fun s => ptp (path s))); try assumption; rewrite A0; reflexivity. }
  unfold c_tangent, tangent_eqs. fold d. repeat match goal with |- _ /\ _ => split end; intros i Hi.
  - intros H. apply (derive_const_loc (fun s => at_ (ptx (path s)) i) 0 (at_ (ptx a) i)); [|apply M1; exact Hi].
    revert SO. apply filter_imp. intros s S. apply S; assumption.
  - intros H. assert (D : is_derive (fun s => user_stability (problem_at P k (be s) (bg s) s) (ptx (path s)) (ptp (path s)) (ptye (path s)) (ptyg (path s)) (ptze (path s)) (ptzg (path s)) i) 0
      (sum (d_x d) (fun j => o_fxx (at_f P a) i j * dx t j) + sum (d_p d) (fun l => o_fxp (at_f P a) i l * dp t l) + o_fxc (at_f P a) i k
       + sum (d_be d) (fun l => p_Aex P l i * dye t l) + sum (d_bg d) (fun l => p_Agx P l i * dyg t l)
       + sum (d_he d) (fun l => 0 * at_ (ptze (path 0)) l + c_ddx (at_he P a) l i * dze t l)
       + sum (d_hg d) (fun l => 0 * at_ (ptzg (path 0)) l + c_ddx (at_hg P a) l i * dzg t l))).
    { unfold user_stability. cbn [p_dims p_Aex p_Agx p_c problem_at]. fold d.
      change (uf (problem_at P k _ _ _)) with (uf P). change (uhe (problem_at P k _ _ _)) with (uhe P). change (uhg (problem_at P k _ _ _)) with (uhg P).
      apply deriv4.
      - apply (CH (fun x p c => o_fx (ovalue (uf P) x p c) i)). apply DF. exact Hi.
      - apply derive_sum. intros l Hl. apply derive_scale. apply M5. exact Hl.
      - apply derive_sum. intros l Hl. apply derive_scale. apply M6. exact Hl.
      - apply derive_sum. intros l Hl. apply (derive_prod (fun s => c_ddx (value (uhe P) (ptx (path s)) (ptp (path s)) (shifted (p_c P) k s)) l i)).
        + apply M7. exact Hl.
        + assert (E := CH _ _ _ _ (JE l i Hl Hi)). cbn beta in E. rewrite (sum_zero (d_x d)), (sum_zero (d_p d)), !Rplus_0_r in E by (intros; ring). exact E.
        + unfold at_he. rewrite A0, shifted_0 by exact Hk. reflexivity.
      - apply derive_sum. intros l Hl. apply (derive_prod (fun s => c_ddx (value (uhg P) (ptx (path s)) (ptp (path s)) (shifted (p_c P) k s)) l i)).
        + apply M8. exact Hl.
        + assert (E := CH _ _ _ _ (JG l i Hl Hi)). cbn beta in E. rewrite (sum_zero (d_x d)), (sum_zero (d_p d)), !Rplus_0_r in E by (intros; ring). exact E.
        + unfold at_hg. rewrite A0, shifted_0 by exact Hk. reflexivity. }
    apply (derive_const_loc _ 0 (user_stability P (ptx a) (ptp a) (ptye a) (ptyg a) (ptze a) (ptzg a) i)) in D.
    + rewrite (sum_ext (d_he d) (fun l => 0 * at_ (ptze (path 0)) l + c_ddx (at_he P a) l i * dze t l) (fun l => c_ddx (at_he P a) l i * dze t l)) in D by (intros; ring).
      rewrite (sum_ext (d_hg d) (fun l => 0 * at_ (ptzg (path 0)) l + c_ddx (at_hg P a) l i * dzg t l) (fun l => c_ddx (at_hg P a) l i * dzg t l)) in D by (intros; ring).
      lra.
    + revert SO. apply filter_imp. intros s S. apply S; assumption.
  - assert (D := CH _ _ _ _ (DV i Hi)). apply (derive_const_loc _ 0 (c_val (at_v P a) i)) in D; [lra|].
    revert SO. apply filter_imp. intros s S. apply S. exact Hi.
  - assert (D : is_derive (fun s => lin (d_x d) (d_p d) (p_Aex P) (p_Aep P) (ptx (path s)) (ptp (path s)) i - at_ (be s) i) 0
      (sum (d_x d) (fun j => p_Aex P i j * dx t j) + sum (d_p d) (fun l => p_Aep P i l * dp t l) - p_bec P i k)).
    { apply (is_derive_minus (fun s => lin (d_x d) (d_p d) (p_Aex P) (p_Aep P) (ptx (path s)) (ptp (path s)) i) (fun s => at_ (be s) i)).
      - apply (derive_lin (d_x d) (d_p d) (p_Aex P) (p_Aep P) (fun s => ptx (path s)) (fun s => ptp (path s))); assumption.
      - apply MB. exact Hi. }
    apply (derive_const_loc _ 0 (lin (d_x d) (d_p d) (p_Aex P) (p_Aep P) (ptx a) (ptp a) i - at_ (p_be P) i)) in D; [lra|].
    revert SO. apply filter_imp. intros s S. apply S. exact Hi.
  - assert (D : is_derive (fun s => lin (d_x d) (d_p d) (p_Agx P) (p_Agp P) (ptx (path s)) (ptp (path s)) i + at_ (ptbg (path s)) i - at_ (bg s) i) 0
      (sum (d_x d) (fun j => p_Agx P i j * dx t j) + sum (d_p d) (fun l => p_Agp P i l * dp t l) + dbg t i - p_bgc P i k)).
    { apply (is_derive_minus (fun s => lin (d_x d) (d_p d) (p_Agx P) (p_Agp P) (ptx (path s)) (ptp (path s)) i + at_ (ptbg (path s)) i) (fun s => at_ (bg s) i)).
      - apply (is_derive_plus (fun s => lin (d_x d) (d_p d) (p_Agx P) (p_Agp P) (ptx (path s)) (ptp (path s)) i) (fun s => at_ (ptbg (path s)) i)).
        + apply (derive_lin (d_x d) (d_p d) (p_Agx P) (p_Agp P) (fun s => ptx (path s)) (fun s => ptp (path s))); assumption.
        + apply M3. exact Hi.
      - apply MG. exact Hi. }
    apply (derive_const_loc _ 0 (lin (d_x d) (d_p d) (p_Agx P) (p_Agp P) (ptx a) (ptp a) i + at_ (ptbg a) i - at_ (p_bg P) i)) in D; [lra|].
    revert SO. apply filter_imp. intros s S. apply S. exact Hi.
  - assert (D := CH _ _ _ _ (DE i Hi)). apply (derive_const_loc _ 0 (c_val (at_he P a) i)) in D; [lra|].
    revert SO. apply filter_imp. intros s S. apply S. exact Hi.
  - assert (D := CH _ _ _ _ (DG i Hi)). cbn beta in D.
    apply (is_derive_plus _ (fun s => at_ (pthg (path s)) i) 0 _ (dhg t i)) in D; [|apply M4; exact Hi].
    apply (derive_const_loc _ 0 (c_val (at_hg P a) i + at_ (pthg a) i)) in D.
    + unfold plus in D; cbn in D. lra.
    + revert SO. apply filter_imp. intros s S. apply S. exact Hi.
  - split; intros H.
    + apply (derive_const_loc (fun s => at_ (ptbg (path s)) i) 0 (at_ (ptbg a) i)); [|apply M3; exact Hi].
      revert SO. apply filter_imp. intros s S. apply S; assumption.
    + apply (derive_const_loc (fun s => at_ (ptyg (path s)) i) 0 (at_ (ptyg a) i)); [|apply M6; exact Hi].
      revert SO. apply filter_imp. intros s S. apply S; assumption.
  - split; intros H.
    + apply (derive_const_loc (fun s => at_ (pthg (path s)) i) 0 (at_ (pthg a) i)); [|apply M4; exact Hi].
      revert SO. apply filter_imp. intros s S. apply S; assumption.
    + apply (derive_const_loc (fun s => at_ (ptzg (path s)) i) 0 (at_ (ptzg a) i)); [|apply M8; exact Hi].
      revert SO. apply filter_imp. intros s S. apply S; assumption.
Qed.
