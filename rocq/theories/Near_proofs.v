(** From approximate KKT points of the master problem to those of the user's problem (C75). *)
From Coq Require Import List Arith Bool Reals Lra Lia.
From Verif Require Import Num Wrapper_model Wrapper_spec Wrapper_proofs End_spec.
Import ListNotations.
Local Open Scope R_scope.

Section Near.
Variables (f1 f2 f3 : nat -> R) (oAx oAp obc : mat R) (P : problem R xreal) (M : master R xreal).
Let d := p_dims P.
Hypothesis C : conforming P.
Hypothesis U : update_master f1 f2 f3 oAx oAp obc P = Some M.
Hypothesis Z : forall i j, (i < d_be d)%nat -> (d_x d <= j < d_x d + d_bg d)%nat -> mget (mresize f1 oAx (ny d) (nxbar d)) i j = 0.
Variables (x p xbg xhg ye yg ze zg : list R).
Hypothesis Lx : length x = d_x d.
Hypothesis Lbg : length xbg = d_bg d.
Hypothesis Lhg : length xhg = d_hg d.
Hypothesis Lye : length ye = d_be d.
Hypothesis Lyg : length yg = d_bg d.
Hypothesis Lze : length ze = d_he d.
Let xbar := x ++ xbg ++ xhg.
Let w := ye ++ yg ++ ze ++ zg.

Lemma dims_M : ms_ny M = ny d /\ ms_nz M = nz d /\ ms_nx M = nxbar d /\ ms_np M = d_p d /\ ms_plower M = p_plower P /\ ms_pupper M = p_pupper P.
Proof. rewrite (Meq _ _ _ _ _ _ _ _ U). repeat split. Qed.
Lemma bd_x j : (j < d_x d)%nat -> bd (ms_xlower M) j = bd (p_xlower P) j /\ bd (ms_xupper M) j = bd (p_xupper P) j.
Proof using C U.
  destruct C as (_ & _ & Cl & Cu). fold d in Cl, Cu. intros Hj. rewrite (Meq _ _ _ _ _ _ _ _ U). cbn [ms_xlower ms_xupper].
  split; apply bd_app1; [rewrite Cl | rewrite Cu]; exact Hj.
Qed.
Lemma bd_slack j : (j < d_bg d + d_hg d)%nat -> bd (ms_xlower M) (d_x d + j) = XNInf /\ bd (ms_xupper M) (d_x d + j) = XF 0.
Proof.
  destruct C as (_ & _ & Cl & Cu). fold d in Cl, Cu. intros Hj. rewrite (Meq _ _ _ _ _ _ _ _ U). cbn [ms_xlower ms_xupper].
  split; apply bd_repeat; assumption.
Qed.
Lemma v_eq i : (i < d_p d)%nat -> c_val (value (ms_v M) xbar p (ms_c M)) i = c_val (value (uv P) x p (p_c P)) i.
Proof.
  intros Hi. rewrite (Meq _ _ _ _ _ _ _ _ U). cbn [ms_v ms_c]. rewrite master_v_val by (first [exact Hi | unfold xbar, nxbar; rewrite !app_length; fold d; lia]).
  unfold xbar. rewrite head_app by exact Lx. reflexivity.
Qed.

Lemma near_user tol jb : master_near M xbar p tol jb w ->
  user_near P tol jb x xbg xhg p ye yg ze zg /\
  (length jb = (d_be d + d_bg d + d_he d + d_hg d)%nat -> exists V, inverts M xbar p jb V /\
     user_constraints_near P (allowed M xbar p tol jb V) x xbg xhg p).
Proof.
  destruct dims_M as (E1 & E2 & E3 & E4 & E5 & E6).
  intros (H1 & H2 & H3 & H4 & H5 & H6). rewrite E1, E2 in H3, H6. rewrite E3 in H3. rewrite E4 in H4. rewrite E5, E6 in H2.
  apply (proj1 (bounds_split _ _ _ _ _ _ _ _ C U _ _ _ Lx Lbg Lhg)) in H1. destruct H1 as (B1 & B2 & B3). fold d in B2, B3.
  split.
  - unfold user_near. fold d. repeat (apply conj); try assumption.
    + intros j Hj. specialize (H3 j ltac:(unfold nxbar; lia)). destruct (bd_x j Hj) as [-> ->] in H3.
      unfold xbar in H3. rewrite (xbar_x P x xbg xhg Lx) in H3 by exact Hj.
      rewrite <- (lag_x _ _ _ _ _ _ _ _ U Z x p xbg xhg ye yg ze zg Lx Lbg Lhg Lye Lyg Lze) by exact Hj. exact H3.
    + intros i Hi. split; [apply B2; exact Hi|]. specialize (H3 (d_x d + i)%nat ltac:(unfold nxbar; lia)).
      destruct (bd_slack i ltac:(lia)) as [F1 F2]. rewrite F1, F2 in H3.
      unfold xbar in H3. rewrite (xbar_bg P x xbg xhg Lx Lbg) in H3 by exact Hi.
      pose proof (lag_bg _ _ _ _ _ _ _ _ U Z x p xbg xhg ye yg ze zg Lx Lbg Lhg Lye Lyg Lze i Hi) as LB. unfold lag in LB. fold d in LB.
      unfold w in H3. rewrite LB in H3.
      destruct H3 as [[S|[[S _]|[S1 S2]]]|[I [S|S]]]; try discriminate; [left; exact S| |].
      * right. injection S1 as S1. split; [lra|left; exact S2].
      * right. injection S as S. split; [lra|right; exact I].
    + intros i Hi. split; [apply B3; exact Hi|]. specialize (H3 (d_x d + d_bg d + i)%nat ltac:(unfold nxbar; lia)).
      destruct (bd_slack (d_bg d + i) ltac:(lia)) as [F1 F2]. rewrite Nat.add_assoc in F1, F2. rewrite F1, F2 in H3.
      unfold xbar in H3. rewrite (xbar_hg P x xbg xhg Lx Lbg) in H3.
      pose proof (lag_hg _ _ _ _ _ _ _ _ U Z x p xbg xhg ye yg ze zg Lx Lbg Lhg Lye Lyg Lze i Hi) as LB. unfold lag in LB. fold d in LB.
      unfold w in H3. rewrite LB in H3.
      destruct H3 as [[S|[[S _]|[S1 S2]]]|[I [S|S]]]; try discriminate; [left; exact S| |].
      * right. injection S1 as S1. split; [lra|left; exact S2].
      * right. injection S as S. split; [lra|right; exact I].
    + intros k Hk. rewrite <- v_eq by exact Hk. apply H4. exact Hk.
  - intros LJ. destruct H6 as (V & HV & H6); [unfold ny, nz; lia|]. exists V. split; [exact HV|].
    unfold user_constraints_near. fold d. unfold ny, nz in H6.
    repeat (apply conj).
    + intros i Hi. specialize (H6 i ltac:(lia)). unfold cleft in H6. rewrite E1 in H6.
      replace (i <? ny d)%nat with true in H6 by (symmetry; apply Nat.ltb_lt; unfold ny; lia).
      rewrite E3, E4 in H6. unfold xbar in H6.
      rewrite (lin_e _ _ _ _ _ _ _ _ U Z x p xbg xhg Lx Lbg Lhg) in H6 by exact Hi.
      rewrite (b_e _ _ _ _ _ _ _ _ C U) in H6 by exact Hi. rewrite Rabs_minus_sym. exact H6.
    + intros i Hi. specialize (H6 (d_be d + i)%nat ltac:(lia)). unfold cleft in H6. rewrite E1 in H6.
      replace (d_be d + i <? ny d)%nat with true in H6 by (symmetry; apply Nat.ltb_lt; unfold ny; lia).
      rewrite E3, E4 in H6. unfold xbar in H6.
      rewrite (lin_g _ _ _ _ _ _ _ _ U Z x p xbg xhg Lx Lbg Lhg) in H6 by exact Hi.
      rewrite (b_g _ _ _ _ _ _ _ _ C U) in H6. rewrite Rabs_minus_sym in H6. split; [exact H6|].
      specialize (B2 i Hi). match goal with H : Rabs ?a <= ?b |- _ => pose proof (Rle_abs (- a)) as Q; rewrite Rabs_Ropp in Q end.
      fold d in H6, Q. fold xbar in H6. lra.
    + intros i Hi. specialize (H6 (d_be d + d_bg d + i)%nat ltac:(lia)). unfold cleft in H6. rewrite E1 in H6.
      replace (d_be d + d_bg d + i <? ny d)%nat with false in H6 by (symmetry; apply Nat.ltb_ge; unfold ny; lia).
      replace (d_be d + d_bg d + i - ny d)%nat with i in H6 by (unfold ny; lia). unfold xbar in H6.
      rewrite (h_e _ _ _ _ _ _ _ _ U x p xbg xhg Lx Lbg Lhg) in H6 by exact Hi. rewrite Rabs_Ropp in H6. exact H6.
    + intros i Hi. specialize (H6 (d_be d + d_bg d + d_he d + i)%nat ltac:(lia)). unfold cleft in H6. rewrite E1 in H6.
      replace (d_be d + d_bg d + d_he d + i <? ny d)%nat with false in H6 by (symmetry; apply Nat.ltb_ge; unfold ny; lia).
      replace (d_be d + d_bg d + d_he d + i - ny d)%nat with (d_he d + i)%nat in H6 by (unfold ny; lia). unfold xbar in H6.
      rewrite (h_g _ _ _ _ _ _ _ _ U x p xbg xhg Lx Lbg Lhg) in H6 by exact Hi. rewrite Rabs_Ropp in H6. split; [exact H6|].
      specialize (B3 i Hi). match goal with H : Rabs ?a <= ?b |- _ => pose proof (Rle_abs (- a)) as Q; rewrite Rabs_Ropp in Q end.
      fold d in H6, Q. fold xbar in H6. lra.
Qed.
End Near.
