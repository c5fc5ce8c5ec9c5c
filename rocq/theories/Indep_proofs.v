(** Proofs for C83: independent equality constraints make all constraints of the master problem
    independent, because every inequality constraint has a slack of its own. *)
From Coq Require Import List Arith Bool Reals Lia Lra.
From Verif Require Import Num Wrapper_model Wrapper_spec Wrapper_proofs End_spec Near_proofs.
Import ListNotations.
Local Open Scope R_scope.

Section Independent.
Variables (f1 f2 f3 : nat -> R) (oAx oAp obc : mat R) (P : problem R xreal) (M : master R xreal).
Hypothesis U : update_master f1 f2 f3 oAx oAp obc P = Some M.
Let d := p_dims P.
Hypothesis Z : forall i j, (i < d_be d)%nat -> (d_x d <= j < d_x d + d_bg d)%nat -> mget (mresize f1 oAx (ny d) (nxbar d)) i j = 0.
Variables (x xbg xhg p : list R).
Hypothesis (Lx : length x = d_x d) (Lbg : length xbg = d_bg d) (Lhg : length xhg = d_hg d).
Let X := x ++ xbg ++ xhg.

Lemma cWx_A l j : (l < ny d)%nat -> (j < nxbar d)%nat -> cWx M X p l j = documented_Ax d (p_Aex P) (p_Agx P) l j.
Proof.
  intros Hl Hj. unfold cWx. rewrite <- (Ax_doc f1 f2 f3 oAx oAp obc P M U Z x xbg xhg Lx Lbg Lhg) by assumption.
  rewrite (Meq f1 f2 f3 oAx oAp obc P M U). cbn [ms_ny ms_Ax]. fold d. apply Nat.ltb_lt in Hl. rewrite Hl. reflexivity.
Qed.
Lemma cWx_J l j : (l < nz d)%nat -> (j < nxbar d)%nat -> cWx M X p (ny d + l) j =
  if (j <? d_x d)%nat then (if (l <? d_he d)%nat then c_ddx (value (uhe P) x p (p_c P)) l j else c_ddx (value (uhg P) x p (p_c P)) (l - d_he d) j)
  else if (d_he d <=? l)%nat && (d_x d + d_bg d <=? j)%nat && (l - d_he d =? j - (d_x d + d_bg d))%nat then 1 else 0.
Proof.
  intros Hl Hj. unfold cWx. rewrite (Meq f1 f2 f3 oAx oAp obc P M U). cbn [ms_ny ms_h ms_c]. fold d.
  destruct (Nat.ltb_spec (ny d + l) (ny d)); [lia|]. replace (ny d + l - ny d)%nat with l by lia.
  rewrite master_h_ddx by (try assumption; unfold X, nxbar; rewrite !app_length; lia). unfold X. rewrite head_app by exact Lx. reflexivity.
Qed.

(** the columns of the slacks pick the coefficients of the inequality constraints *)
Lemma slack_bg (f : nat -> R) i : (i < d_bg d)%nat ->
  sum (ny d + nz d) (fun l => f l * cWx M X p l (d_x d + i)) = f (d_be d + i)%nat.
Proof.
  intros Hi. rewrite sum_split, (sum_zero (nz d)).
  - rewrite (sum_delta (ny d) (d_be d + i)).
    + rewrite cWx_A by (unfold ny, nxbar; lia). unfold documented_Ax. bsolve. cbn. lra.
    + unfold ny; lia.
    + intros k Hk Hne. rewrite cWx_A by (try assumption; unfold nxbar; lia). unfold documented_Ax. bsolve; cbn; lra.
  - intros k Hk. rewrite cWx_J by (try assumption; unfold nxbar; lia). bsolve; lra.
Qed.
Lemma slack_hg (f : nat -> R) i : (i < d_hg d)%nat ->
  sum (ny d + nz d) (fun l => f l * cWx M X p l (d_x d + d_bg d + i)) = f (ny d + (d_he d + i))%nat.
Proof.
  intros Hi. rewrite sum_split, (sum_zero (ny d)).
  - rewrite (sum_delta (nz d) (d_he d + i)).
    + rewrite cWx_J by (unfold nz, nxbar; lia). bsolve. lra.
    + unfold nz; lia.
    + intros k Hk Hne. rewrite cWx_J by (try assumption; unfold nxbar; lia). bsolve; lra.
  - intros k Hk. rewrite cWx_A by (try assumption; unfold nxbar; lia). unfold documented_Ax. bsolve; cbn; lra.
Qed.
Lemma user_col (f : nat -> R) j : (j < d_x d)%nat ->
  sum (ny d + nz d) (fun l => f l * cWx M X p l j) =
    sum (d_be d) (fun i => f i * p_Aex P i j) + sum (d_bg d) (fun i => f (d_be d + i)%nat * p_Agx P i j)
    + sum (d_he d) (fun i => f (ny d + i)%nat * c_ddx (value (uhe P) x p (p_c P)) i j)
    + sum (d_hg d) (fun i => f (ny d + (d_he d + i))%nat * c_ddx (value (uhg P) x p (p_c P)) i j).
Proof.
  intros Hj. rewrite sum_split. unfold ny at 1, nz at 1. rewrite !sum_split, <- Rplus_assoc.
  apply f_equal2; [apply f_equal2; [apply f_equal2|]|]; apply sum_ext; intros k Hk.
  - rewrite cWx_A by (unfold ny, nxbar; lia). unfold documented_Ax. bsolve. reflexivity.
  - rewrite cWx_A by (unfold ny, nxbar; lia). unfold documented_Ax. bsolve. do 2 f_equal. lia.
  - rewrite cWx_J by (unfold nz, nxbar; lia). bsolve. reflexivity.
  - rewrite cWx_J by (unfold nz, nxbar; lia). bsolve. do 2 f_equal. lia.
Qed.
Lemma all_rows (f : nat -> R) : (forall i, (i < d_be d)%nat -> f i = 0) -> (forall i, (i < d_bg d)%nat -> f (d_be d + i)%nat = 0) ->
  (forall i, (i < d_he d)%nat -> f (ny d + i)%nat = 0) -> (forall i, (i < d_hg d)%nat -> f (ny d + (d_he d + i))%nat = 0) ->
  forall l, (l < ny d + nz d)%nat -> f l = 0.
Proof.
  intros I1 G1 I2 G2 l Hl.
  destruct (lt_dec l (d_be d)) as [A1|A1]; [exact (I1 l A1)|].
  destruct (lt_dec l (ny d)) as [A2|A2].
  { replace l with (d_be d + (l - d_be d))%nat by lia. apply G1. unfold ny in A2. lia. }
  replace l with (ny d + (l - ny d))%nat by lia.
  destruct (lt_dec (l - ny d) (d_he d)) as [A3|A3]; [exact (I2 _ A3)|].
  replace (l - ny d)%nat with (d_he d + (l - ny d - d_he d))%nat by lia. apply G2. unfold nz in Hl. lia.
Qed.

Lemma master_licq : conforming P -> licq P x xbg xhg p -> forall f : nat -> R,
  (forall j, (j < nxbar d)%nat -> ~ at_bound (at_ X j) (bd (ms_xlower M) j) (bd (ms_xupper M) j) -> sum (ny d + nz d) (fun l => f l * cWx M X p l j) = 0) ->
  forall l, (l < ny d + nz d)%nat -> f l = 0.
Proof.
  intros C I f H.
  destruct (I f (fun i => f (d_be d + i)%nat) (fun i => f (ny d + i)%nat) (fun i => f (ny d + (d_he d + i))%nat)) as (I1 & I2 & I3 & I4).
  - intros i Hi N. fold d in Hi. rewrite <- slack_bg by exact Hi. apply H; [unfold nxbar; lia|].
    destruct (bd_slack _ _ _ _ _ _ _ _ C U i) as [E1 E2]; [fold d; lia|]. fold d in E1, E2. rewrite E1, E2. unfold X.
    rewrite (xbar_bg P x xbg xhg Lx Lbg) by exact Hi.
    intros [B|B]; [discriminate B | injection B as B; congruence].
  - intros i Hi N. fold d in Hi. rewrite <- slack_hg by exact Hi. apply H; [unfold nxbar; lia|].
    destruct (bd_slack _ _ _ _ _ _ _ _ C U (d_bg d + i)) as [E1 E2]; [fold d; lia|]. fold d in E1, E2.
    rewrite Nat.add_assoc in E1, E2. rewrite E1, E2. unfold X.
    rewrite (xbar_hg P x xbg xhg Lx Lbg).
    intros [B|B]; [discriminate B | injection B as B; congruence].
  - fold d. intros j Hj N. rewrite <- user_col by exact Hj. apply H; [unfold nxbar; lia|].
    destruct (bd_x _ _ _ _ _ _ _ _ C U j Hj) as [E1 E2]. rewrite E1, E2. unfold X. rewrite (xbar_x P x xbg xhg Lx) by exact Hj. exact N.
  - exact (all_rows f I1 I2 I3 I4).
Qed.

Lemma licq_independent : licq P x xbg xhg p -> independent_equalities P x p.
Proof.
  intros I a b H. fold d in H.
  destruct (I a (fun _ => 0) b (fun _ => 0)) as (I1 & _ & I3 & _); [reflexivity | reflexivity | | split; assumption].
  intros j Hj _. fold d. fold d in Hj. rewrite (sum_zero (d_bg d)), (sum_zero (d_hg d)) by (intros; lra).
  specialize (H j Hj). lra.
Qed.

Lemma master_independent : independent_equalities P x p -> forall f : nat -> R,
  (forall j, (j < nxbar d)%nat -> sum (ny d + nz d) (fun l => f l * cWx M X p l j) = 0) ->
  forall l, (l < ny d + nz d)%nat -> f l = 0.
Proof.
  intros I f H.
  assert (G1 : forall i, (i < d_bg d)%nat -> f (d_be d + i)%nat = 0).
  { intros i Hi. rewrite <- slack_bg by exact Hi. apply H. unfold nxbar; lia. }
  assert (G2 : forall i, (i < d_hg d)%nat -> f (ny d + (d_he d + i))%nat = 0).
  { intros i Hi. rewrite <- slack_hg by exact Hi. apply H. unfold nxbar; lia. }
  destruct (I f (fun i => f (ny d + i)%nat)) as [I1 I2].
  { fold d. intros j Hj. assert (Hj' : (j < nxbar d)%nat) by (unfold nxbar; lia). rewrite <- (H j Hj'), user_col by exact Hj.
    rewrite (sum_zero (d_bg d)) by (intros k Hk; rewrite G1 by exact Hk; lra).
    rewrite (sum_zero (d_hg d)) by (intros k Hk; rewrite G2 by exact Hk; lra). lra. }
  exact (all_rows f I1 G1 I2 G2).
Qed.
End Independent.
