(** Proofs for C91: approximate KKT points of convex problems nearly minimise the objective function. *)
From Coq Require Import List Arith Bool Reals Lra Lia.
From Verif Require Import Num Wrapper_model Wrapper_spec End_spec Convex_spec.
Import ListNotations.
Local Open Scope R_scope.

Lemma sum_le n f g : (forall i, (i < n)%nat -> f i <= g i) -> sum n f <= sum n g.
Proof. induction n as [|n IH]; intros H; simpl; [lra|]. specialize (IH (fun i h => H i (Nat.lt_lt_succ_r _ _ h))). specialize (H n (Nat.lt_succ_diag_r n)). lra. Qed.
Lemma sum_plus n f g : sum n (fun i => f i + g i) = sum n f + sum n g.
Proof. induction n as [|n IH]; simpl; [|rewrite IH]; lra. Qed.
Lemma sum_scal n a f : sum n (fun i => a * f i) = a * sum n f.
Proof. induction n as [|n IH]; simpl; [|rewrite IH]; lra. Qed.
Lemma sum_opp n f : sum n (fun i => - f i) = - sum n f.
Proof. induction n as [|n IH]; simpl; [|rewrite IH]; lra. Qed.
Lemma sum_eq n f g : (forall i, (i < n)%nat -> f i = g i) -> sum n f = sum n g.
Proof. induction n as [|n IH]; intros H; simpl; [reflexivity|]. rewrite IH; [|intros; apply H; lia]. rewrite H; [reflexivity|lia]. Qed.
Lemma sum_pos n f : (forall i, (i < n)%nat -> 0 <= f i) -> 0 <= sum n f.
Proof. induction n as [|n IH]; intros H; simpl; [lra|]. specialize (IH (fun i h => H i (Nat.lt_lt_succ_r _ _ h))). specialize (H n (Nat.lt_succ_diag_r n)). lra. Qed.
Lemma sum_swap n m f : sum n (fun j => sum m (fun i => f i j)) = sum m (fun i => sum n (fun j => f i j)).
Proof.
  induction n as [|n IH]; simpl.
  - induction m as [|m IHm]; simpl; [reflexivity|rewrite <- IHm; lra].
  - rewrite IH, <- sum_plus. reflexivity.
Qed.

(** The first-order form of convexity *)
Lemma tangent n mu phi g x y : below_chord n mu phi x y -> gradient_towards n phi g x y ->
  phi x + slope n g x y + mu / 2 * distance2 n x y <= phi y.
Proof.
  intros B G.
  destruct (Rle_dec (phi x + slope n g x y + mu / 2 * distance2 n x y) (phi y)) as [H|H]; [exact H|exfalso].
  set (D := mu / 2 * distance2 n x y) in *.
  set (gap := phi x + slope n g x y + D - phi y). assert (gap > 0) by (unfold gap; lra).
  destruct (G (gap / 4) ltac:(lra)) as [delta [d0 Hd]].
  set (t := Rmin (delta / 2) (Rmin (/ 2) (gap / (4 * (Rabs D + 1))))).
  pose proof (Rabs_pos D) as AD.
  assert (0 < 4 * (Rabs D + 1)) as A4 by lra.
  assert (0 < gap / (4 * (Rabs D + 1))) as GP by (apply Rdiv_lt_0_compat; lra).
  assert (t <= delta / 2) as T1 by apply Rmin_l.
  assert (t <= / 2) as T2 by (eapply Rle_trans; [apply Rmin_r|apply Rmin_l]).
  assert (t <= gap / (4 * (Rabs D + 1))) as T3 by (eapply Rle_trans; [apply Rmin_r|apply Rmin_r]).
  assert (0 < t) as T0 by (unfold t; repeat apply Rmin_glb_lt; lra).
  assert (t * Rabs D <= gap / 4) as TD.
  { apply Rle_trans with (gap / (4 * (Rabs D + 1)) * (Rabs D + 1)).
    - apply Rmult_le_compat; lra.
    - right; field; lra. }
  assert (t * D <= gap / 4) as TD' by (pose proof (Rle_abs D); pose proof (Rmult_le_compat_l t _ _ (Rlt_le _ _ T0) (Rle_abs D)); lra).
  specialize (Hd t ltac:(lra)). specialize (B t ltac:(lra)).
  assert (- (gap / 4 * t) <= phi (along x y t) - phi x - t * slope n g x y).
  { unfold Rabs in Hd; destruct Rcase_abs; lra. }
  replace (mu / 2 * (t * (1 - t)) * distance2 n x y) with (t * D - t * (t * D)) in B by (unfold D; ring).
  assert (t * (t * D) <= t * (gap / 4)) by (apply Rmult_le_compat_l; lra).
  assert (t * gap <= t * (gap / 2)); [|assert (0 < t * gap) by (apply Rmult_lt_0_compat; lra); lra].
  unfold gap at 1. lra.
Qed.
Lemma cotangent n phi g x y : above_chord phi x y -> gradient_towards n phi g x y -> phi y <= phi x + slope n g x y.
Proof.
  intros B G.
  assert (below_chord n 0 (fun z => - phi z) x y) as B' by (intros t Ht; specialize (B t Ht); cbv beta; lra).
  assert (slope n (fun j => - g j) x y = - slope n g x y) as S.
  { unfold slope. rewrite <- sum_opp. apply sum_eq; intros; ring. }
  pose proof (tangent n 0 (fun z => - phi z) (fun j => - g j) x y B') as T.
  rewrite S in T; cbv beta in T.
  assert (gradient_towards n (fun z => - phi z) (fun j => - g j) x y) as G'.
  { intros eps e0; destruct (G eps e0) as [delta [d0 Hd]]; exists delta; split; [exact d0|]; intros t Ht.
    rewrite S. specialize (Hd t Ht). rewrite <- Rabs_Ropp.
    match goal with |- Rabs ?a <= _ => replace a with (phi (along x y t) - phi x - t * slope n g x y) by ring end; exact Hd. }
  specialize (T G'). lra.
Qed.

Lemma lin_slope nx np Ax Ap x y p i : lin nx np Ax Ap y p i = lin nx np Ax Ap x p i + slope nx (Ax i) x y.
Proof.
  unfold lin, slope.
  assert (sum nx (fun j => Ax i j * at_ y j) = sum nx (fun j => Ax i j * at_ x j) + sum nx (fun j => Ax i j * (at_ y j - at_ x j))); [|lra].
  rewrite <- sum_plus; apply sum_eq; intros; ring.
Qed.

Section Near.
Variables (P : problem R xreal) (mu tol : R) (room : nat -> R) (x xbg xhg p ye yg ze zg y : list R).
Let d := p_dims P.
Let F := ovalue (uf P) x p (p_c P).
Let HE := value (uhe P) x p (p_c P).
Let HG := value (uhg P) x p (p_c P).
Let grad j := o_fx F j
  + sum (d_be d) (fun i => p_Aex P i j * at_ ye i) + sum (d_bg d) (fun i => p_Agx P i j * at_ yg i)
  + sum (d_he d) (fun i => c_ddx HE i j * at_ ze i) + sum (d_hg d) (fun i => c_ddx HG i j * at_ zg i).
Let del j := at_ y j - at_ x j.

Lemma slope_sum m (A : nat -> nat -> R) w :
  sum (d_x d) (fun j => sum m (fun i => A i j * at_ w i) * del j) = sum m (fun i => at_ w i * slope (d_x d) (A i) x y).
Proof.
  rewrite (sum_eq _ _ (fun j => sum m (fun i => at_ w i * (A i j * del j)))).
  - rewrite sum_swap; apply sum_eq; intros i Hi. rewrite sum_scal; reflexivity.
  - intros j Hj. rewrite Rmult_comm, <- sum_scal; apply sum_eq; intros; ring.
Qed.
Lemma grad_split : sum (d_x d) (fun j => grad j * del j) =
  slope (d_x d) (o_fx F) x y + sum (d_be d) (fun i => at_ ye i * slope (d_x d) (p_Aex P i) x y)
  + sum (d_bg d) (fun i => at_ yg i * slope (d_x d) (p_Agx P i) x y)
  + sum (d_he d) (fun i => at_ ze i * slope (d_x d) (c_ddx HE i) x y)
  + sum (d_hg d) (fun i => at_ zg i * slope (d_x d) (c_ddx HG i) x y).
Proof.
  rewrite <- !slope_sum; unfold slope. rewrite <- !sum_plus; apply sum_eq; intros j Hj; unfold grad, del; ring.
Qed.

Lemma bounded a b r : Rabs b <= r -> a * b <= Rabs a * r.
Proof.
  intros H. apply Rle_trans with (Rabs (a * b)); [apply Rle_abs|].
  rewrite Rabs_mult; apply Rmult_le_compat_l; [apply Rabs_pos|exact H].
Qed.
(** The term of an inequality constraint with multiplier a and change b, violated by at most r at x *)
Lemma one_sided a b r : 0 <= r -> 0 <= tol -> (Rabs a < tol \/ (a <= 0 /\ - r <= b)) -> a * b <= tol * Rabs b + Rabs a * r.
Proof.
  intros r0 t0 [H|[H1 H2]].
  - assert (a * b <= Rabs a * Rabs b) by (apply bounded; lra).
    pose proof (Rabs_pos b). pose proof (Rabs_pos a).
    assert (Rabs a * Rabs b <= tol * Rabs b) by (apply Rmult_le_compat_r; lra).
    assert (0 <= Rabs a * r) by (apply Rmult_le_pos; lra). lra.
  - rewrite (Rabs_left1 a H1). pose proof (Rabs_pos b).
    assert (0 <= tol * Rabs b) by (apply Rmult_le_pos; lra).
    assert (0 <= - a * (b + r)) by (apply Rmult_le_pos; lra). lra.
Qed.

Hypothesis t0 : 0 < tol.
Hypothesis Lx : length x = d_x d.
Hypothesis Ly : length y = d_x d.

Lemma near_variable j : (j < d_x d)%nat -> within (p_xlower P) (p_xupper P) y ->
  near_stationary tol (grad j) (at_ x j) (bd (p_xlower P) j) (bd (p_xupper P) j) -> - (tol * Rabs (del j)) <= grad j * del j.
Proof.
  intros Hj W S. pose proof (Rabs_pos (del j)) as AP.
  assert (0 <= tol * Rabs (del j)) by (apply Rmult_le_pos; lra).
  destruct (W j) as [W1 W2]; [rewrite Ly; exact Hj|].
  destruct S as [S|[[S1 S2]|[S1 S2]]].
  - assert (Rabs (grad j * del j) <= tol * Rabs (del j)) by (rewrite Rabs_mult; apply Rmult_le_compat_r; lra).
    pose proof (Rle_abs (- (grad j * del j))) as K; rewrite Rabs_Ropp in K; lra.
  - rewrite S1 in W1. simpl in W1. unfold rleb in W1; destruct Rle_dec as [L|]; [|discriminate].
    assert (0 <= grad j * del j) by (apply Rmult_le_pos; unfold del; lra). lra.
  - rewrite S1 in W2. simpl in W2. unfold rleb in W2; destruct Rle_dec as [L|]; [|discriminate].
    assert (0 <= - grad j * - del j) by (apply Rmult_le_pos; unfold del; lra). lra.
Qed.

Theorem near_minimum :
  convex_problem P mu p -> user_near P tol nil x xbg xhg p ye yg ze zg -> user_constraints_near P room x xbg xhg p ->
  feasible_for P p y ->
  objective P x p + mu / 2 * distance2 (d_x d) x y <= objective P y p + tol * spread P p x y + worth d room ye yg ze zg.
Proof.
  intros C [WX [WP [N1 [N2 [N3 _]]]]] [U1 [U2 [U3 U4]]] [F1 [F2 [F3 [F4 WY]]]].
  fold d in N1, N2, N3, U1, U2, U3, U4, F1, F2, F3, F4.
  destruct (C x y Lx Ly WX WY) as [[Cf Gf] [Ch Cg]]; fold d in Cf, Gf, Ch, Cg.
  pose proof (tangent _ _ _ _ _ _ Cf Gf) as T; cbv beta in T.
  unfold objective. fold F; fold F in T, Gf.
  pose proof grad_split as GS.
  assert (- (tol * distance1 (d_x d) x y) <= sum (d_x d) (fun j => grad j * del j)) as G1.
  { unfold distance1. rewrite <- sum_scal, <- sum_opp. apply sum_le; intros j Hj.
    pose proof (near_variable j Hj WY) as K.
    destruct (N1 j Hj) as [S|[[] _]]. specialize (K S). fold (del j). lra. }
  assert (sum (d_be d) (fun i => at_ ye i * slope (d_x d) (p_Aex P i) x y) <= sum (d_be d) (fun i => Rabs (at_ ye i) * room i)) as G2.
  { apply sum_le; intros i Hi. apply bounded. specialize (U1 i Hi). specialize (F1 i Hi).
    rewrite (lin_slope _ _ _ _ x y) in F1. rewrite <- F1, <- Rabs_Ropp in U1.
    match type of U1 with Rabs ?a <= _ => replace a with (slope (d_x d) (p_Aex P i) x y) in U1 by ring end; exact U1. }
  assert (sum (d_bg d) (fun i => at_ yg i * slope (d_x d) (p_Agx P i) x y) <=
     tol * sum (d_bg d) (fun i => Rabs (slope (d_x d) (p_Agx P i) x y)) + sum (d_bg d) (fun i => Rabs (at_ yg i) * room (d_be d + i)%nat)) as G3.
  { rewrite <- sum_scal, <- sum_plus. apply sum_le; intros i Hi. apply one_sided; [destruct (U2 i Hi) as [K _]; eapply Rle_trans; [apply Rabs_pos|exact K]|lra|].
    destruct (N2 i Hi) as [_ [S|[S1 [S2|[]]]]]; [left; exact S|right; split; [lra|]].
    destruct (U2 i Hi) as [K _]. specialize (F2 i Hi). rewrite (lin_slope _ _ _ _ x y) in F2.
    rewrite S1 in K. pose proof (Rle_abs (lin (d_x d) (d_p d) (p_Agx P) (p_Agp P) x p i + 0 - at_ (p_bg P) i)). lra. }
  assert (sum (d_he d) (fun i => at_ ze i * slope (d_x d) (c_ddx HE i) x y) <= sum (d_he d) (fun i => Rabs (at_ ze i) * room (d_be d + d_bg d + i)%nat)) as G4.
  { apply sum_le; intros i Hi. apply bounded. specialize (U3 i Hi). specialize (F3 i Hi).
    destruct (Ch i Hi) as [B1 [B2 B3]].
    pose proof (tangent _ _ _ _ _ _ B1 B3) as T1; pose proof (cotangent _ _ _ _ _ B2 B3) as T2; cbv beta in T1, T2.
    rewrite F3 in T1, T2. rewrite <- Rabs_Ropp in U3. fold HE in T1, T2, U3.
    replace (slope (d_x d) (c_ddx HE i) x y) with (- c_val HE i) by lra. exact U3. }
  assert (sum (d_hg d) (fun i => at_ zg i * slope (d_x d) (c_ddx HG i) x y) <=
     tol * sum (d_hg d) (fun i => Rabs (slope (d_x d) (c_ddx HG i) x y)) + sum (d_hg d) (fun i => Rabs (at_ zg i) * room (d_be d + d_bg d + d_he d + i)%nat)) as G5.
  { rewrite <- sum_scal, <- sum_plus. apply sum_le; intros i Hi. apply one_sided; [destruct (U4 i Hi) as [K _]; eapply Rle_trans; [apply Rabs_pos|exact K]|lra|].
    destruct (N3 i Hi) as [_ [S|[S1 [S2|[]]]]]; [left; exact S|right; split; [lra|]].
    destruct (U4 i Hi) as [K _]. specialize (F4 i Hi). destruct (Cg i Hi) as [B2 B3].
    pose proof (cotangent _ _ _ _ _ B2 B3) as T2; cbv beta in T2. fold HG in T2, K.
    rewrite S1 in K. pose proof (Rle_abs (c_val HG i + 0)). lra. }
  unfold spread, worth. fold d HG. lra.
Qed.

(** The other way round: no point that nearly meets the constraints is much better than a KKT point *)
Theorem kkt_below : user_kkt P x p ye yg ze zg -> convex_problem P mu p ->
  within (p_xlower P) (p_xupper P) y -> user_constraints_near P room y xbg xhg p ->
  objective P x p + mu / 2 * distance2 (d_x d) x y <= objective P y p + worth d room ye yg ze zg.
Proof.
  intros [[F1 [F2 [F3 [F4 [_ [WX _]]]]]] [N1 [N2 N3]]] C WY [U1 [U2 [U3 U4]]].
  fold d in N1, N2, N3, U1, U2, U3, U4, F1, F2, F3, F4.
  destruct (C x y Lx Ly WX WY) as [[Cf Gf] [Ch Cg]]; fold d in Cf, Gf, Ch, Cg.
  pose proof (tangent _ _ _ _ _ _ Cf Gf) as T; cbv beta in T.
  unfold objective. fold F; fold F in T, Gf.
  pose proof grad_split as GS.
  assert (0 <= sum (d_x d) (fun j => grad j * del j)) as G1.
  { apply sum_pos; intros j Hj.
    destruct (WY j) as [W1 W2]; [rewrite Ly; exact Hj|].
    specialize (N1 j Hj). fold F HE HG in N1. fold (grad j) in N1.
    destruct N1 as [S|[[S1 S2]|[S1 S2]]].
    - rewrite S; lra.
    - rewrite S1 in W1. simpl in W1. unfold rleb in W1; destruct Rle_dec as [L|]; [|discriminate].
      apply Rmult_le_pos; unfold del; lra.
    - rewrite S1 in W2. simpl in W2. unfold rleb in W2; destruct Rle_dec as [L|]; [|discriminate].
      assert (0 <= - grad j * - del j) by (apply Rmult_le_pos; unfold del; lra). lra. }
  assert (sum (d_be d) (fun i => at_ ye i * slope (d_x d) (p_Aex P i) x y) <= sum (d_be d) (fun i => Rabs (at_ ye i) * room i)) as G2.
  { apply sum_le; intros i Hi. apply bounded. specialize (U1 i Hi). specialize (F1 i Hi).
    rewrite (lin_slope _ _ _ _ x y), F1 in U1.
    match type of U1 with Rabs ?a <= _ => replace a with (slope (d_x d) (p_Aex P i) x y) in U1 by ring end; exact U1. }
  assert (forall a b r, 0 <= r -> a <= 0 -> (a = 0 \/ - r <= b) -> a * b <= Rabs a * r) as OS.
  { intros a b r r0 a0 [->|H]; [rewrite Rabs_R0; lra|]. rewrite (Rabs_left1 a a0).
    assert (0 <= - a * (b + r)) by (apply Rmult_le_pos; lra). lra. }
  assert (sum (d_bg d) (fun i => at_ yg i * slope (d_x d) (p_Agx P i) x y) <= sum (d_bg d) (fun i => Rabs (at_ yg i) * room (d_be d + i)%nat)) as G3.
  { apply sum_le; intros i Hi. destruct (U2 i Hi) as [K1 K2]. destruct (N2 i Hi) as [S1 S2].
    apply OS; [eapply Rle_trans; [apply Rabs_pos|exact K1]|exact S1|].
    destruct S2 as [S2|S2]; [left; exact S2|right]. rewrite (lin_slope _ _ _ _ x y), S2 in K2. lra. }
  assert (sum (d_he d) (fun i => at_ ze i * slope (d_x d) (c_ddx HE i) x y) <= sum (d_he d) (fun i => Rabs (at_ ze i) * room (d_be d + d_bg d + i)%nat)) as G4.
  { apply sum_le; intros i Hi. apply bounded. specialize (U3 i Hi). specialize (F3 i Hi).
    destruct (Ch i Hi) as [B1 [B2 B3]].
    pose proof (tangent _ _ _ _ _ _ B1 B3) as T1; pose proof (cotangent _ _ _ _ _ B2 B3) as T2; cbv beta in T1, T2.
    rewrite F3 in T1, T2. fold HE in T1, T2.
    replace (slope (d_x d) (c_ddx HE i) x y) with (c_val (value (uhe P) y p (p_c P)) i) by lra. exact U3. }
  assert (sum (d_hg d) (fun i => at_ zg i * slope (d_x d) (c_ddx HG i) x y) <= sum (d_hg d) (fun i => Rabs (at_ zg i) * room (d_be d + d_bg d + d_he d + i)%nat)) as G5.
  { apply sum_le; intros i Hi. destruct (U4 i Hi) as [K1 K2]. destruct (N3 i Hi) as [S1 S2].
    apply OS; [eapply Rle_trans; [apply Rabs_pos|exact K1]|exact S1|].
    destruct S2 as [S2|S2]; [left; exact S2|right]. destruct (Cg i Hi) as [B2 B3].
    pose proof (cotangent _ _ _ _ _ B2 B3) as T2; cbv beta in T2. rewrite S2 in T2. fold HG in T2. lra. }
  unfold worth. lra.
Qed.
End Near.

Lemma distance2_sym n x y : distance2 n x y = distance2 n y x.
Proof. apply sum_eq; intros; ring. Qed.
Lemma distance2_pos n x y : 0 <= distance2 n x y.
Proof. apply sum_pos; intros; apply pow2_ge_0. Qed.
