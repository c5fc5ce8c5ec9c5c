(** Proofs for C87 in plain real analysis: the error of a Newton step near a solution. *)
From Coq Require Import List Arith Bool Reals Lia Lra Psatz.
From Verif Require Import Num Wrapper_model Wrapper_spec Wrapper_proofs End_spec Near_proofs Indep_proofs Status_spec SensW_spec SensW_proofs Converge_spec.
Import ListNotations.
Local Open Scope R_scope.

Lemma sum_plus n f g : sum n (fun i => f i + g i) = sum n f + sum n g.
Proof. induction n as [|n IH]; cbn; [lra|]. rewrite IH. lra. Qed.
Lemma sum_mul_plus n A f g : sum n (fun i => A i * (f i + g i)) = sum n (fun i => A i * f i) + sum n (fun i => A i * g i).
Proof. rewrite <- sum_plus. apply sum_ext. intros. lra. Qed.
Lemma sum_mul_opp n A f : sum n (fun i => A i * - f i) = - sum n (fun i => A i * f i).
Proof. induction n as [|n IH]; cbn; [lra|]. rewrite IH. lra. Qed.

(** ** From the equations of the master problem to those of the user's, with any right-hand sides *)
Section Rows.
Variables (f1 f2 f3 : nat -> R) (oAx oAp obc : mat R) (P : problem R xreal) (M : master R xreal).
Hypothesis U : update_master f1 f2 f3 oAx oAp obc P = Some M.
Let d := p_dims P.
Hypothesis Z : forall i j, (i < d_be d)%nat -> (d_x d <= j < d_x d + d_bg d)%nat -> mget (mresize f1 oAx (ny d) (nxbar d)) i j = 0.
Variables (b : upoint).
Hypothesis (Lx : length (ptx b) = d_x d) (Lbg : length (ptbg b) = d_bg d) (Lhg : length (pthg b) = d_hg d).

Lemma tangent_rows fixed rx rp rw vx vp vw :
  master_tangent P M b fixed rx rp rw vx vp vw -> let t := dir_of P vx vp vw in
  (forall j, (j < d_x d)%nat -> fixed j -> dx t j = 0) /\
  (forall j, (j < d_x d)%nat -> ~ fixed j -> lhs_x P b t j = rx j) /\
  (forall l, (l < d_p d)%nat -> lhs_v P b t l = rp l) /\
  (forall i, (i < d_be d)%nat -> lhs_be P t i = rw i) /\ (forall i, (i < d_bg d)%nat -> lhs_bg P t i = rw (d_be d + i)%nat) /\
  (forall i, (i < d_he d)%nat -> lhs_he P b t i = rw (ny d + i)%nat) /\ (forall i, (i < d_hg d)%nat -> lhs_hg P b t i = rw (ny d + (d_he d + i))%nat) /\
  (forall i, (i < d_bg d)%nat -> (fixed (d_x d + i)%nat -> dbg t i = 0) /\ (~ fixed (d_x d + i)%nat -> dyg t i = rx (d_x d + i)%nat)) /\
  (forall i, (i < d_hg d)%nat -> (fixed (d_x d + d_bg d + i)%nat -> dhg t i = 0) /\ (~ fixed (d_x d + d_bg d + i)%nat -> dzg t i = rx (d_x d + d_bg d + i)%nat)).
Proof.
  intros (T1 & T2 & T3 & T4) t. unfold lhs_x, lhs_v, lhs_be, lhs_bg, lhs_he, lhs_hg, t, dir_of. cbn [dx dp dbg dhg dye dyg dze dzg].
  fold d. set (X := ptx b ++ ptbg b ++ pthg b) in *. set (p := ptp b) in *. fold d in T1, T2, T3, T4.
  repeat match goal with |- _ /\ _ => split end.
  - intros j Hj Hh. apply T1; [unfold nxbar; lia | assumption].
  - intros j Hj Hh. assert (Hj' : (j < nxbar d)%nat) by (unfold nxbar; lia).
    rewrite <- (T2 j Hj' Hh).
    pose proof (row_fxx _ _ _ _ _ _ _ _ U b Lx Lbg Lhg) as RX. fold d X p in RX. rewrite RX by exact Hj'. bsolve.
    pose proof (row_fxp _ _ _ _ _ _ _ _ U b Lx) as RP. fold d X p in RP.
    rewrite (sum_ext (d_p d) (fun k => o_fxp (ocall (ms_f M) X p (ms_c M) ozero) j k * vp k) (fun k => o_fxp (at_f P b) j k * vp k))
      by (intros k _; rewrite RP; bsolve; reflexivity).
    unfold X. rewrite (user_col _ _ _ _ _ _ _ _ U Z _ _ _ _ Lx Lbg Lhg) by exact Hj. fold d. rewrite <- !Rplus_assoc.
    repeat (apply f_equal2; [|apply sum_ext; intros; unfold at_he, at_hg; rewrite Rmult_comm; reflexivity]). reflexivity.
  - intros l Hl. rewrite <- (T3 l Hl).
    pose proof (row_vx _ _ _ _ _ _ _ _ U b Lx Lbg Lhg) as RX. fold d X p in RX. rewrite RX by exact Hl. f_equal. apply sum_ext. intros k Hk.
    pose proof (row_vpc _ _ _ _ _ _ _ _ U b Lx Lbg Lhg) as RP. fold d X p in RP. destruct (RP l k Hl) as [-> _]. reflexivity.
  - intros i Hi. rewrite <- (T4 i) by (unfold ny; lia).
    pose proof (row_be _ _ _ _ _ _ _ _ U Z b Lx Lbg Lhg) as RB. fold d X p in RB. rewrite RB by exact Hi. f_equal. apply sum_ext. intros k Hk.
    pose proof (cWp_rows _ _ _ _ _ _ _ _ U b Lx Lbg Lhg) as RP. fold d X p in RP. rewrite RP by (try assumption; unfold ny; lia). bsolve. reflexivity.
  - intros i Hi. rewrite <- (T4 (d_be d + i)%nat) by (unfold ny; lia).
    pose proof (row_bg _ _ _ _ _ _ _ _ U Z b Lx Lbg Lhg) as RB. fold d X p in RB. rewrite RB by exact Hi.
    rewrite (sum_ext (d_p d) (fun k => cWp M X p (d_be d + i) k * vp k) (fun k => p_Agp P i k * vp k)); [lra|]. intros k Hk.
    pose proof (cWp_rows _ _ _ _ _ _ _ _ U b Lx Lbg Lhg) as RP. fold d X p in RP.
    rewrite RP by (try assumption; unfold ny; lia). unfold ny. bsolve. do 2 f_equal. lia.
  - intros i Hi. rewrite <- (T4 (ny d + i)%nat) by (unfold nz; lia).
    pose proof (row_he _ _ _ _ _ _ _ _ U b Lx Lbg Lhg) as RB. fold d X p in RB. rewrite RB by exact Hi. f_equal. apply sum_ext. intros k Hk.
    pose proof (cWp_rows _ _ _ _ _ _ _ _ U b Lx Lbg Lhg) as RP. fold d X p in RP.
    rewrite RP by (try assumption; unfold nz; lia). unfold ny. bsolve. do 2 f_equal. lia.
  - intros i Hi. rewrite <- (T4 (ny d + (d_he d + i))%nat) by (unfold nz; lia).
    pose proof (row_hg _ _ _ _ _ _ _ _ U b Lx Lbg Lhg) as RB. fold d X p in RB. rewrite RB by exact Hi.
    rewrite (sum_ext (d_p d) (fun k => cWp M X p (ny d + (d_he d + i)) k * vp k) (fun k => c_ddp (at_hg P b) i k * vp k)); [lra|]. intros k Hk.
    pose proof (cWp_rows _ _ _ _ _ _ _ _ U b Lx Lbg Lhg) as RP. fold d X p in RP.
    rewrite RP by (try assumption; unfold nz; lia). unfold ny. bsolve. do 2 f_equal. lia.
  - intros i Hi. split; intros H.
    + apply T1; [unfold nxbar; lia | assumption].
    + assert (SB := slack_bg _ _ _ _ _ _ _ _ U Z _ _ _ p Lx Lbg Lhg vw i Hi). fold d in SB. fold X in SB. rewrite <- SB.
      assert (E := T2 (d_x d + i)%nat ltac:(unfold nxbar; lia) H).
      pose proof (row_fxx _ _ _ _ _ _ _ _ U b Lx Lbg Lhg) as RX. fold d X p in RX. rewrite RX in E by (unfold nxbar; lia).
      pose proof (row_fxp _ _ _ _ _ _ _ _ U b Lx) as RP. fold d X p in RP.
      rewrite (sum_zero (d_p d)) in E by (intros k _; rewrite RP; bsolve; lra).
      rewrite <- E. bsolve. lra.
  - intros i Hi. split; intros H.
    + apply T1; [unfold nxbar; lia | assumption].
    + assert (SB := slack_hg _ _ _ _ _ _ _ _ U Z _ _ _ p Lx Lbg Lhg vw i Hi). fold d in SB. fold X in SB. rewrite <- SB.
      assert (E := T2 (d_x d + d_bg d + i)%nat ltac:(unfold nxbar; lia) H).
      pose proof (row_fxx _ _ _ _ _ _ _ _ U b Lx Lbg Lhg) as RX. fold d X p in RX. rewrite RX in E by (unfold nxbar; lia).
      pose proof (row_fxp _ _ _ _ _ _ _ _ U b Lx) as RP. fold d X p in RP.
      rewrite (sum_zero (d_p d)) in E by (intros k _; rewrite RP; bsolve; lra).
      rewrite <- E. bsolve. lra.
Qed.
End Rows.

(** ** The largest component *)
Fixpoint top (n : nat) (f : nat -> R) : R := match n with O => 0 | S n' => Rmax (top n' f) (Rabs (f n')) end.
Lemma top_pos n f : 0 <= top n f.
Proof. induction n as [|n IH]; cbn; [lra|]. pose proof (Rmax_l (top n f) (Rabs (f n))). lra. Qed.
Lemma top_ge n f i : (i < n)%nat -> Rabs (f i) <= top n f.
Proof.
  induction n as [|n IH]; intros H; [lia|]. cbn. pose proof (Rmax_l (top n f) (Rabs (f n))). pose proof (Rmax_r (top n f) (Rabs (f n))).
  destruct (Nat.eq_dec i n) as [->|N]; [assumption|]. specialize (IH ltac:(lia)). lra.
Qed.
Lemma top_le n f r : 0 <= r -> (forall i, (i < n)%nat -> Rabs (f i) <= r) -> top n f <= r.
Proof. intros R0 H. induction n as [|n IH]; cbn; [exact R0|]. apply Rmax_lub; [apply IH; intros; apply H; lia | apply H; lia]. Qed.

Lemma norm_exists d t : exists n, 0 <= n /\ bounded d n t /\ forall r, 0 <= r -> bounded d r t -> n <= r.
Proof.
  pose (a1 := Rmax (top (d_x d) (dx t)) (top (d_p d) (dp t))). pose (a2 := Rmax (top (d_bg d) (dbg t)) (top (d_hg d) (dhg t))).
  pose (a3 := Rmax (top (d_be d) (dye t)) (top (d_bg d) (dyg t))). pose (a4 := Rmax (top (d_he d) (dze t)) (top (d_hg d) (dzg t))).
  exists (Rmax (Rmax a1 a2) (Rmax a3 a4)).
  assert (M : forall n f N, top n f <= N -> forall i, (i < n)%nat -> Rabs (f i) <= N) by (intros n f N H i Hi; pose proof (top_ge n f i Hi); lra).
  pose proof (Rmax_l (Rmax a1 a2) (Rmax a3 a4)). pose proof (Rmax_r (Rmax a1 a2) (Rmax a3 a4)).
  pose proof (Rmax_l a1 a2). pose proof (Rmax_r a1 a2). pose proof (Rmax_l a3 a4). pose proof (Rmax_r a3 a4).
  assert (top (d_x d) (dx t) <= a1) by apply Rmax_l. assert (top (d_p d) (dp t) <= a1) by apply Rmax_r.
  assert (top (d_bg d) (dbg t) <= a2) by apply Rmax_l. assert (top (d_hg d) (dhg t) <= a2) by apply Rmax_r.
  assert (top (d_be d) (dye t) <= a3) by apply Rmax_l. assert (top (d_bg d) (dyg t) <= a3) by apply Rmax_r.
  assert (top (d_he d) (dze t) <= a4) by apply Rmax_l. assert (top (d_hg d) (dzg t) <= a4) by apply Rmax_r.
  split; [pose proof (top_pos (d_x d) (dx t)); lra|]. split.
  - unfold bounded. repeat match goal with |- _ /\ _ => split end; apply M; lra.
  - intros r R0 (B1 & B2 & B3 & B4 & B5 & B6 & B7 & B8). repeat apply Rmax_lub; apply top_le; assumption.
Qed.
Lemma bounded_le d r r' t : r <= r' -> bounded d r t -> bounded d r' t.
Proof. intros H (B1 & B2 & B3 & B4 & B5 & B6 & B7 & B8). unfold bounded. repeat match goal with |- _ /\ _ => split end; intros i Hi; eapply Rle_trans; eauto. Qed.

(** ** Directions add up *)
Definition dadd (s t : udir) : udir :=
  UDir (fun i => dx s i + dx t i) (fun i => dp s i + dp t i) (fun i => dbg s i + dbg t i) (fun i => dhg s i + dhg t i)
    (fun i => dye s i + dye t i) (fun i => dyg s i + dyg t i) (fun i => dze s i + dze t i) (fun i => dzg s i + dzg t i).
Lemma lhs_add P b s t : (forall j, lhs_x P b (dadd s t) j = lhs_x P b s j + lhs_x P b t j) /\ (forall l, lhs_v P b (dadd s t) l = lhs_v P b s l + lhs_v P b t l) /\
  (forall i, lhs_be P (dadd s t) i = lhs_be P s i + lhs_be P t i) /\ (forall i, lhs_bg P (dadd s t) i = lhs_bg P s i + lhs_bg P t i) /\
  (forall i, lhs_he P b (dadd s t) i = lhs_he P b s i + lhs_he P b t i) /\ (forall i, lhs_hg P b (dadd s t) i = lhs_hg P b s i + lhs_hg P b t i).
Proof.
  unfold lhs_x, lhs_v, lhs_be, lhs_bg, lhs_he, lhs_hg, dadd. cbn [dx dp dbg dhg dye dyg dze dzg].
  repeat match goal with |- _ /\ _ => split end; intros i; rewrite !sum_mul_plus; lra.
Qed.
Lemma diff_opp a b n A (sel : udir -> nat -> R) : (forall i, sel (diff b a) i = - sel (diff a b) i) -> sum n (fun i => A i * sel (diff b a) i) = - sum n (fun i => A i * sel (diff a b) i).
Proof. intros H. rewrite <- sum_mul_opp. apply sum_ext. intros i _. rewrite H. reflexivity. Qed.

Section Local.
Variables (P : problem R xreal) (a : upoint).
Let d := p_dims P.

Lemma xf_dec (u : xreal) (s : R) : {u = XF s} + {u <> XF s}.
Proof. destruct u as [t| | |]; try (right; discriminate). destruct (Req_EM_T t s) as [->|N]; [left; reflexivity | right; congruence]. Qed.
Lemma held_dec j : held P a j \/ ~ held P a j.
Proof.
  unfold held. set (s := user_stability _ _ _ _ _ _ _ _).
  destruct (xf_dec (bd (p_xlower P) j) (at_ (ptx a) j)), (xf_dec (bd (p_xupper P) j) (at_ (ptx a) j)), (Rlt_dec 0 s), (Rlt_dec s 0); try tauto.
Qed.
Lemma bg_held_dec i : bg_held a i \/ ~ bg_held a i.
Proof. unfold bg_held. destruct (Req_EM_T (at_ (ptbg a) i) 0), (Rlt_dec (at_ (ptyg a) i) 0); tauto. Qed.
Lemma hg_held_dec i : hg_held a i \/ ~ hg_held a i.
Proof. unfold hg_held. destruct (Req_EM_T (at_ (pthg a) i) 0), (Rlt_dec (at_ (ptzg a) i) 0); tauto. Qed.

Variables (kappa L C rho K mu : R).
Hypothesis CD : conditioned P a kappa.
Hypothesis SM : smooth P a L C rho.
Hypothesis LP : lipschitz P a K rho.
Hypothesis MG : margins P a mu.
Hypothesis k0 : 0 <= kappa.
Hypothesis L0 : 0 <= L.
Hypothesis C0 : 0 <= C.
Variables (r : R) (b : upoint).
Hypothesis Hr : 0 <= r <= rho.
Hypothesis NB : near P a r b.
Hypothesis rm : r < mu.
Hypothesis Krm : K * r < mu.

(** the same is held *)
Lemma held_near j : (j < d_x d)%nat -> (held P b j <-> held P a j).
Proof.
  intros Hj. destruct MG as (M1 & M2 & _). destruct (LP r b Hr NB) as (S1 & _). specialize (S1 j Hj). destruct NB as (_ & (B1 & _) & H1 & _).
  specialize (B1 j Hj). cbn [diff dx] in B1. split; intros H.
  - destruct (held_dec j) as [D|D]; [exact D|]. exfalso. apply (M2 j (at_ (ptx b) j) Hj D); [lra|].
    destruct H as [[H _]|[H _]]; [left | right]; exact H.
  - specialize (M1 j Hj H). specialize (H1 j Hj H). unfold held. fold (stab P b j). rewrite H1.
    destruct H as [[H N]|[H N]]; [left | right]; (split; [exact H|]); fold (stab P a j) in N; revert N M1 S1; unfold Rabs;
      destruct (Rcase_abs (stab P a j)), (Rcase_abs (stab P b j - stab P a j)); lra.
Qed.
Lemma bg_held_near i : (i < d_bg d)%nat -> (bg_held b i <-> bg_held a i).
Proof.
  intros Hi. destruct MG as (_ & _ & M3 & _). destruct (M3 i Hi) as [M4 M5]. destruct NB as (_ & (_ & _ & B3 & _ & _ & B6 & _) & _ & H2 & _).
  specialize (B3 i Hi). specialize (B6 i Hi). cbn [diff dbg dyg] in B3, B6. split; intros H.
  - destruct (bg_held_dec i) as [D|D]; [exact D|]. exfalso. specialize (M5 D). destruct H as [H _]. rewrite H in B3.
    revert B3. unfold Rabs. destruct (Rcase_abs _); lra.
  - specialize (M4 H). split; [exact (H2 i Hi H)|]. revert B6. unfold Rabs. destruct (Rcase_abs _); lra.
Qed.
Lemma hg_held_near i : (i < d_hg d)%nat -> (hg_held b i <-> hg_held a i).
Proof.
  intros Hi. destruct MG as (_ & _ & _ & M3 & _). destruct (M3 i Hi) as [M4 M5]. destruct NB as (_ & (_ & _ & _ & B3 & _ & _ & _ & B6) & _ & _ & H2).
  specialize (B3 i Hi). specialize (B6 i Hi). cbn [diff dhg dzg] in B3, B6. split; intros H.
  - destruct (hg_held_dec i) as [D|D]; [exact D|]. exfalso. specialize (M5 D). destruct H as [H _]. rewrite H in B3.
    revert B3. unfold Rabs. destruct (Rcase_abs _); lra.
  - specialize (M4 H). split; [exact (H2 i Hi H)|]. revert B6. unfold Rabs. destruct (Rcase_abs _); lra.
Qed.

Hypothesis kL : kappa * (L * r) <= / 8.

(** the step is determined *)
Lemma unique_near : unique_tangent P b.
Proof.
  intros t (T1 & T2 & T3 & T4 & T5 & T6 & T7 & T8 & T9).
  change (forall j, (j < d_x d)%nat -> ~ held P b j -> lhs_x P b t j = 0) in T2. change (forall l, (l < d_p d)%nat -> lhs_v P b t l = 0) in T3.
  change (forall i, (i < d_be d)%nat -> lhs_be P t i = 0) in T4. change (forall i, (i < d_bg d)%nat -> lhs_bg P t i = 0) in T5.
  change (forall i, (i < d_he d)%nat -> lhs_he P b t i = 0) in T6. change (forall i, (i < d_hg d)%nat -> lhs_hg P b t i = 0) in T7.
  destruct (norm_exists d t) as (n & N0 & N1 & N2).
  destruct (SM r b Hr NB) as (_ & _ & _ & _ & _ & SD). destruct (SD n t N1) as (D1 & D2 & D3 & D4).
  assert (E0 : 0 <= L * (r * n)) by (apply Rmult_le_pos; [exact L0 | apply Rmult_le_pos; lra]).
  assert (B : bounded d (kappa * (L * (r * n))) t).
  { apply CD; intros i Hi.
    - intros H. apply T1; [exact Hi | apply held_near; assumption].
    - intros H. specialize (D1 i Hi). rewrite (T2 i Hi) in D1; [|rewrite held_near; assumption]. replace (lhs_x P a t i) with (lhs_x P a t i - 0) by lra. exact D1.
    - specialize (D2 i Hi). rewrite (T3 i Hi) in D2. replace (lhs_v P a t i) with (lhs_v P a t i - 0) by lra. exact D2.
    - rewrite (T4 i Hi), Rabs_R0. exact E0.
    - rewrite (T5 i Hi), Rabs_R0. exact E0.
    - specialize (D3 i Hi). rewrite (T6 i Hi) in D3. replace (lhs_he P a t i) with (lhs_he P a t i - 0) by lra. exact D3.
    - specialize (D4 i Hi). rewrite (T7 i Hi) in D4. replace (lhs_hg P a t i) with (lhs_hg P a t i - 0) by lra. exact D4.
    - rewrite <- bg_held_near by exact Hi. exact (T8 i Hi).
    - rewrite <- hg_held_near by exact Hi. exact (T9 i Hi). }
  assert (Z : n <= 0).
  { assert (n <= kappa * (L * (r * n))) by (apply N2; [apply Rmult_le_pos; assumption | exact B]).
    replace (kappa * (L * (r * n))) with (kappa * (L * r) * n) in H by lra. nra. }
  destruct N1 as (B1 & B2 & B3 & B4 & B5 & B6 & B7 & B8).
  assert (G : forall (f : nat -> R) m, (forall i, (i < m)%nat -> Rabs (f i) <= n) -> forall i, (i < m)%nat -> f i = 0).
  { intros f m H i Hi. specialize (H i Hi). revert H. unfold Rabs. destruct (Rcase_abs _); lra. }
  unfold same_dir, zero_dir. cbn [dx dp dbg dhg dye dyg dze dzg]. fold d. repeat match goal with |- _ /\ _ => split end; apply G; assumption.
Qed.

(** ** The error after the step *)
Hypothesis SA : forall j, (j < d_x d)%nat -> ~ held P a j -> stab P a j = 0.
Hypothesis VA : forall l, (l < d_p d)%nat -> c_val (at_v P a) l = 0.
Hypothesis A1 : forall i, (i < d_be d)%nat -> left_be P a i = 0.
Hypothesis A2 : forall i, (i < d_bg d)%nat -> left_bg P a i = 0.
Hypothesis A3 : forall i, (i < d_he d)%nat -> left_he P a i = 0.
Hypothesis A4 : forall i, (i < d_hg d)%nat -> left_hg P a i = 0.
Hypothesis YA : forall i, (i < d_bg d)%nat -> ~ bg_held a i -> at_ (ptyg a) i = 0.
Hypothesis ZA : forall i, (i < d_hg d)%nat -> ~ hg_held a i -> at_ (ptzg a) i = 0.
Variables (eta : R) (t : udir) (c1 c2 c3 c4 : nat -> R).
Hypothesis eta0 : 0 <= eta.
Hypothesis T1 : forall j, (j < d_x d)%nat -> held P a j -> dx t j = 0.
Hypothesis T2 : forall j, (j < d_x d)%nat -> ~ held P a j -> lhs_x P b t j = - stab P b j.
Hypothesis T3 : forall l, (l < d_p d)%nat -> lhs_v P b t l = - c_val (at_v P b) l.
Hypothesis T4 : forall i, (i < d_be d)%nat -> lhs_be P t i = left_be P b i + c1 i.
Hypothesis T5 : forall i, (i < d_bg d)%nat -> lhs_bg P t i = left_bg P b i + c2 i.
Hypothesis T6 : forall i, (i < d_he d)%nat -> lhs_he P b t i = left_he P b i + c3 i.
Hypothesis T7 : forall i, (i < d_hg d)%nat -> lhs_hg P b t i = left_hg P b i + c4 i.
Hypothesis T8 : forall i, (i < d_bg d)%nat -> (bg_held a i -> dbg t i = 0) /\ (~ bg_held a i -> dyg t i = - at_ (ptyg b) i).
Hypothesis T9 : forall i, (i < d_hg d)%nat -> (hg_held a i -> dhg t i = 0) /\ (~ hg_held a i -> dzg t i = - at_ (ptzg b) i).
Hypothesis G1 : forall i, (i < d_be d)%nat -> Rabs (c1 i) <= eta.
Hypothesis G2 : forall i, (i < d_bg d)%nat -> Rabs (c2 i) <= eta.
Hypothesis G3 : forall i, (i < d_he d)%nat -> Rabs (c3 i) <= eta.
Hypothesis G4 : forall i, (i < d_hg d)%nat -> Rabs (c4 i) <= eta.

Lemma step_error : bounded d (8 / 7 * (kappa * (C * r + L * (r * r) + eta))) (dadd (diff a b) t).
Proof.
  set (s := dadd (diff a b) t). destruct (norm_exists d s) as (n & N0 & N1 & N2).
  destruct (SM r b Hr NB) as (F1 & F2 & F3 & F4 & F5 & SD). destruct (SD n s N1) as (D1 & D2 & D3 & D4).
  destruct (lhs_add P b (diff a b) t) as (E1 & E2 & E3 & E4 & E5 & E6). fold s in E1, E2, E3, E4, E5, E6.
  fold d in F1, F2, F3, F4, F5, D1, D2, D3, D4. destruct NB as (_ & _ & H1 & H2 & H3). fold d in H1, H2, H3.
  assert (R2 : 0 <= L * (r * r)) by (apply Rmult_le_pos; [exact L0 | apply Rmult_le_pos; lra]).
  assert (R3 : 0 <= L * (r * n)) by (apply Rmult_le_pos; [exact L0 | apply Rmult_le_pos; lra]).
  assert (R1 : 0 <= C * r) by (apply Rmult_le_pos; lra).
  assert (TRI : forall x y z w, Rabs (x - y) <= w -> Rabs y <= z -> Rabs x <= z + w).
  { intros x y z w Q1 Q2. replace x with (y + (x - y)) by lra. pose proof (Rabs_triang y (x - y)). lra. }
  assert (B : bounded d (kappa * (C * r + L * (r * r) + eta + L * (r * n))) s).
  { apply CD; fold d; intros i Hi.
    - intros H. unfold s, dadd. cbn [dx diff]. rewrite (T1 i Hi H), (H1 i Hi H). lra.
    - intros H. apply (TRI _ (lhs_x P b s i)); [exact (D1 i Hi)|]. rewrite E1, (T2 i Hi H).
      specialize (F1 i Hi). specialize (F5 i Hi). pose proof (SA i Hi H) as S0.
      rewrite (diff_opp a b _ _ dx) in F1 by (intros; cbn; lra). rewrite (diff_opp a b _ _ dp) in F1 by (intros; cbn; lra).
      set (e1 := _ - _ - _ - _) in F1. set (e2 := _ + _) in F5.
      replace (lhs_x P b (diff a b) i + - stab P b i) with (e1 + e2); [pose proof (Rabs_triang e1 e2); lra|].
      assert (X : e1 + e2 = lhs_x P b (diff a b) i - stab P b i + stab P a i); [|rewrite X, S0; lra].
      unfold e1, e2, lhs_x, stab, user_stability. fold d. cbn [diff dye dyg dze dzg].
      fold (at_f P a) (at_f P b) (at_he P a) (at_he P b) (at_hg P a) (at_hg P b).
      rewrite !sum_mul_minus.
      rewrite (sum_ext _ (fun i0 => (c_ddx (at_he P a) i0 i - c_ddx (at_he P b) i0 i) * at_ (ptze a) i0)
        (fun i0 => c_ddx (at_he P a) i0 i * at_ (ptze a) i0 - c_ddx (at_he P b) i0 i * at_ (ptze a) i0)) by (intros; lra).
      rewrite (sum_ext _ (fun i0 => (c_ddx (at_hg P a) i0 i - c_ddx (at_hg P b) i0 i) * at_ (ptzg a) i0)
        (fun i0 => c_ddx (at_hg P a) i0 i * at_ (ptzg a) i0 - c_ddx (at_hg P b) i0 i * at_ (ptzg a) i0)) by (intros; lra).
      rewrite !sum_minus. lra.
    - apply (TRI _ (lhs_v P b s i)); [exact (D2 i Hi)|]. rewrite E2, (T3 i Hi). specialize (F2 i Hi). rewrite (VA i Hi) in F2.
      unfold lhs_v in F2 at 1. rewrite (diff_opp a b _ _ dx) in F2 by (intros; cbn; lra). rewrite (diff_opp a b _ _ dp) in F2 by (intros; cbn; lra).
      unfold lhs_v. fold d in F2 |- *. set (u := _ - _) in F2. match goal with |- Rabs ?g <= _ => replace g with u by (unfold u; lra) end. lra.
    - unfold lhs_be in E3. rewrite <- (Rplus_0_r (_ + _ + eta)). assert (Q : lhs_be P s i = c1 i).
      { unfold lhs_be in *. rewrite E3, (T4 i Hi). specialize (A1 i Hi). unfold left_be, lin in *. fold d in A1 |- *. cbn [diff dx dp]. rewrite !sum_mul_minus. lra. }
      rewrite Q. specialize (G1 i Hi). lra.
    - assert (Q : lhs_bg P s i = c2 i).
      { rewrite E4, (T5 i Hi). specialize (A2 i Hi). unfold lhs_bg, left_bg, lin in *. fold d in A2 |- *. cbn [diff dx dp dbg]. rewrite !sum_mul_minus. lra. }
      rewrite Q. specialize (G2 i Hi). lra.
    - apply (TRI _ (lhs_he P b s i)); [exact (D3 i Hi)|]. rewrite E5, (T6 i Hi). specialize (F3 i Hi). specialize (A3 i Hi). specialize (G3 i Hi). unfold left_he in *.
      unfold lhs_he in F3 at 1. rewrite (diff_opp a b _ _ dx) in F3 by (intros; cbn; lra). rewrite (diff_opp a b _ _ dp) in F3 by (intros; cbn; lra).
      unfold lhs_he. fold d in F3 |- *. set (u := _ - _) in F3. match goal with |- Rabs ?g <= _ => replace g with (u + c3 i) by (unfold u; lra) end.
      pose proof (Rabs_triang u (c3 i)). lra.
    - apply (TRI _ (lhs_hg P b s i)); [exact (D4 i Hi)|]. rewrite E6, (T7 i Hi). specialize (F4 i Hi). specialize (A4 i Hi). specialize (G4 i Hi). unfold left_hg in *.
      unfold lhs_hg in F4 at 1. rewrite (diff_opp a b _ _ dx) in F4 by (intros; cbn; lra). rewrite (diff_opp a b _ _ dp) in F4 by (intros; cbn; lra).
      unfold lhs_hg. fold d in F4 |- *. cbn [diff dhg] in F4 |- *. set (u := _ - _) in F4. match goal with |- Rabs ?g <= _ => replace g with (u + c4 i) by (unfold u; lra) end.
      pose proof (Rabs_triang u (c4 i)). lra.
    - destruct (T8 i Hi) as [Q1 Q2]. unfold s, dadd. cbn [diff dbg dyg]. split; intros H.
      + rewrite (Q1 H), (H2 i Hi H). destruct H as [H _]. rewrite H. lra.
      + rewrite (Q2 H), (YA i Hi H). lra.
    - destruct (T9 i Hi) as [Q1 Q2]. unfold s, dadd. cbn [diff dhg dzg]. split; intros H.
      + rewrite (Q1 H), (H3 i Hi H). destruct H as [H _]. rewrite H. lra.
      + rewrite (Q2 H), (ZA i Hi H). lra. }
  set (E := C * r + L * (r * r) + eta) in *.
  assert (N3 : n <= kappa * (E + L * (r * n))).
  { apply N2; [|exact B]. apply Rmult_le_pos; [exact k0|]. unfold E. lra. }
  apply (bounded_le d n); [|exact N1].
  assert (N4 : kappa * (L * (r * n)) <= / 8 * n) by (replace (kappa * (L * (r * n))) with (kappa * (L * r) * n) by lra; apply Rmult_le_compat_r; assumption).
  rewrite Rmult_plus_distr_l in N3. lra.
Qed.
End Local.

(** ** The distances *)
Lemma radius_bound kappa L C eta rho : 0 <= kappa -> 0 <= L -> 0 <= C -> 0 <= eta -> 0 <= rho -> kappa * (L * rho) <= / 8 -> kappa * C <= / 8 -> 8 * (kappa * eta) <= rho ->
  forall k, 0 <= radius kappa L C eta rho k <= Rmax (rho * (/ 2) ^ k) (8 * (kappa * eta)).
Proof.
  intros k0 L0 C0 e0 r0 kL kC ke. induction k as [|k [I1 I2]]; cbn [radius pow].
  - split; [exact r0|]. rewrite Rmult_1_r. apply Rmax_l.
  - cbv zeta. set (q := radius kappa L C eta rho k) in *.
    assert (Q : q <= rho).
    { eapply Rle_trans; [exact I2|]. apply Rmax_lub; [|exact ke]. assert (0 <= (/ 2) ^ k <= 1).
      { clear. induction k as [|k [A1 A2]]; cbn; lra. }
      rewrite <- (Rmult_1_r rho) at 2. apply Rmult_le_compat_l; lra. }
    assert (Q1 : kappa * (C * q) <= / 8 * q) by (rewrite <- Rmult_assoc; apply Rmult_le_compat_r; assumption).
    assert (Q2 : kappa * (L * (q * q)) <= / 8 * q).
    { replace (kappa * (L * (q * q))) with (kappa * (L * q) * q) by lra. apply Rmult_le_compat_r; [exact I1|].
      eapply Rle_trans; [|exact kL]. apply Rmult_le_compat_l; [exact k0|]. apply Rmult_le_compat_l; assumption. }
    assert (P1 : 0 <= kappa * (C * q)) by (repeat apply Rmult_le_pos; assumption).
    assert (P2 : 0 <= kappa * (L * (q * q))) by (repeat apply Rmult_le_pos; assumption).
    assert (P3 : 0 <= kappa * eta) by (apply Rmult_le_pos; assumption).
    rewrite !Rmult_plus_distr_l. split; [lra|].
    destruct (Rle_dec (rho * (/ 2) ^ k) (8 * (kappa * eta))) as [H|H].
    + rewrite Rmax_right in I2 by exact H. eapply Rle_trans; [|apply Rmax_r]. lra.
    + rewrite Rmax_left in I2 by lra. eapply Rle_trans; [|apply Rmax_l]. lra.
Qed.

(** ** The constraints of the master problem in terms of the user's, and adding a direction to a point *)
Section Point.
Variables (f1 f2 f3 : nat -> R) (oAx oAp obc : mat R) (P : problem R xreal) (M : master R xreal).
Hypothesis CF : conforming P.
Hypothesis U : update_master f1 f2 f3 oAx oAp obc P = Some M.
Let d := p_dims P.
Hypothesis Z : forall i j, (i < d_be d)%nat -> (d_x d <= j < d_x d + d_bg d)%nat -> mget (mresize f1 oAx (ny d) (nxbar d)) i j = 0.
Variables (b : upoint).
Hypothesis Sb : pt_sized d b.
Let X := ptx b ++ ptbg b ++ pthg b.
Let W := ptye b ++ ptyg b ++ ptze b ++ ptzg b.

Lemma cleft_rows :
  (forall i, (i < d_be d)%nat -> cleft M X (ptp b) i = left_be P b i) /\ (forall i, (i < d_bg d)%nat -> cleft M X (ptp b) (d_be d + i) = left_bg P b i) /\
  (forall i, (i < d_he d)%nat -> cleft M X (ptp b) (ny d + i) = left_he P b i) /\ (forall i, (i < d_hg d)%nat -> cleft M X (ptp b) (ny d + (d_he d + i)) = left_hg P b i).
Proof.
  destruct Sb as (Lx & _ & Lbg & Lhg & _). fold d in Lx, Lbg, Lhg.
  destruct (dims_M _ _ _ _ _ _ _ _ U) as (E1 & E2 & E3 & E4 & _). fold d in E1, E2, E3, E4.
  unfold cleft. rewrite E1, E3, E4. unfold X. repeat (apply conj); intros i Hi.
  - replace (i <? ny d)%nat with true by (symmetry; apply Nat.ltb_lt; unfold ny; lia).
    unfold d. rewrite (lin_e _ _ _ _ _ _ _ _ U Z) by assumption. rewrite (b_e _ _ _ _ _ _ _ _ CF U) by exact Hi. reflexivity.
  - replace (d_be d + i <? ny d)%nat with true by (symmetry; apply Nat.ltb_lt; unfold ny; lia).
    unfold d. rewrite (lin_g _ _ _ _ _ _ _ _ U Z) by assumption. rewrite (b_g _ _ _ _ _ _ _ _ CF U). unfold left_bg. lra.
  - replace (ny d + i <? ny d)%nat with false by (symmetry; apply Nat.ltb_ge; lia). replace (ny d + i - ny d)%nat with i by lia.
    rewrite (h_e _ _ _ _ _ _ _ _ U) by assumption. reflexivity.
  - replace (ny d + (d_he d + i) <? ny d)%nat with false by (symmetry; apply Nat.ltb_ge; lia).
    replace (ny d + (d_he d + i) - ny d)%nat with (d_he d + i)%nat by lia. rewrite (h_g _ _ _ _ _ _ _ _ U) by assumption. unfold left_hg, at_hg. lra.
Qed.

Definition tabl (n : nat) (f : nat -> R) : list R := map f (seq 0 n).
Lemma tabl_len n f : length (tabl n f) = n.
Proof. unfold tabl. rewrite map_length, seq_length. reflexivity. Qed.
Lemma tabl_at n f i : (i < n)%nat -> at_ (tabl n f) i = f i.
Proof. intros H. unfold tabl, at_. rewrite (nth_indep _ 0 (f O)) by (rewrite map_length, seq_length; exact H). rewrite map_nth, seq_nth by exact H. reflexivity. Qed.
Definition moved (t : udir) : upoint :=
  UPoint (tabl (d_x d) (fun i => at_ (ptx b) i + dx t i)) (tabl (d_bg d) (fun i => at_ (ptbg b) i + dbg t i)) (tabl (d_hg d) (fun i => at_ (pthg b) i + dhg t i))
    (tabl (d_p d) (fun i => at_ (ptp b) i + dp t i)) (tabl (d_be d) (fun i => at_ (ptye b) i + dye t i)) (tabl (d_bg d) (fun i => at_ (ptyg b) i + dyg t i))
    (tabl (d_he d) (fun i => at_ (ptze b) i + dze t i)) (tabl (d_hg d) (fun i => at_ (ptzg b) i + dzg t i)).
Lemma moved_sized t : pt_sized d (moved t).
Proof. unfold pt_sized, moved. cbn [ptx ptp ptbg pthg ptye ptyg ptze ptzg]. rewrite !tabl_len. repeat (apply conj); reflexivity. Qed.
Lemma moved_diff a t : same_dir d (diff a (moved t)) (dadd (diff a b) t).
Proof.
  unfold same_dir, dadd, diff, moved. cbn [dx dp dbg dhg dye dyg dze dzg ptx ptp ptbg pthg ptye ptyg ptze ptzg].
  repeat (apply conj); intros i Hi; rewrite tabl_at by exact Hi; lra.
Qed.
Lemma moved_X vx vp vw j : (j < nxbar d)%nat -> let t := dir_of P vx vp vw in
  at_ X j + vx j = at_ (ptx (moved t) ++ ptbg (moved t) ++ pthg (moved t)) j.
Proof.
  intros Hj t. destruct Sb as (Lx & _ & Lbg & Lhg & _). fold d in Lx, Lbg, Lhg.
  destruct (moved_sized t) as (Mx & _ & Mbg & Mhg & _).
  destruct (lt_dec j (d_x d)) as [H1|H1]; [|destruct (lt_dec j (d_x d + d_bg d)) as [H2|H2]].
  - unfold X. rewrite (xbar_x P _ _ _ Lx), (xbar_x P _ _ _ Mx) by exact H1. unfold moved. cbn [ptx]. rewrite tabl_at by exact H1. reflexivity.
  - replace j with (d_x d + (j - d_x d))%nat by lia. set (i := (j - d_x d)%nat). assert (Hi : (i < d_bg d)%nat) by (unfold i; lia).
    unfold X, d. rewrite (xbar_bg P _ _ _ Lx Lbg), (xbar_bg P _ _ _ Mx Mbg) by exact Hi. unfold moved. cbn [ptbg]. rewrite tabl_at by exact Hi. reflexivity.
  - replace j with (d_x d + d_bg d + (j - d_x d - d_bg d))%nat by lia. set (i := (j - d_x d - d_bg d)%nat). assert (Hi : (i < d_hg d)%nat) by (unfold i, nxbar in *; lia).
    unfold X, d. rewrite (xbar_hg P _ _ _ Lx Lbg), (xbar_hg P _ _ _ Mx Mbg). unfold moved. cbn [pthg]. rewrite tabl_at by exact Hi. reflexivity.
Qed.
Lemma moved_W vx vp vw l : (l < ny d + nz d)%nat -> let t := dir_of P vx vp vw in
  at_ W l + vw l = at_ (ptye (moved t) ++ ptyg (moved t) ++ ptze (moved t) ++ ptzg (moved t)) l.
Proof.
  intros Hl t. destruct Sb as (Lx & _ & Lbg & Lhg & Ly & Lyg & Lze & _). fold d in Ly, Lyg, Lze, Lx, Lbg, Lhg.
  destruct (moved_sized t) as (_ & _ & _ & _ & My & Myg & Mze & _).
  set (W' := ptye (moved t) ++ _).
  assert (E : at_ W l + vw l - at_ W' l = 0); [|lra]. revert l Hl.
  apply (all_rows P (ptx b) (ptbg b) (pthg b) Lx Lbg Lhg (fun l => at_ W l + vw l - at_ W' l)); intros i Hi; unfold W, W'; fold d.
  - rewrite !at_app1 by (rewrite ?Ly, ?My; exact Hi). unfold moved. cbn [ptye]. rewrite tabl_at by exact Hi. unfold t, dir_of. cbn [dye]. lra.
  - rewrite !(at_app2 _ _ (d_be d)) by assumption. rewrite !at_app1 by (rewrite ?Lyg, ?Myg; exact Hi). unfold moved. cbn [ptyg]. rewrite tabl_at by exact Hi. unfold t, dir_of. cbn [dyg]. fold d. lra.
  - unfold ny. rewrite <- Nat.add_assoc, !(at_app2 _ _ (d_be d)), !(at_app2 _ _ (d_bg d)), !at_app1 by (rewrite ?Lze, ?Mze; assumption). unfold moved. cbn [ptze]. rewrite tabl_at by exact Hi.
    unfold t, dir_of. cbn [dze]. fold d. unfold ny. rewrite <- Nat.add_assoc. lra.
  - unfold ny. rewrite <- Nat.add_assoc, !(at_app2 _ _ (d_be d)), !(at_app2 _ _ (d_bg d)), !(at_app2 _ _ (d_he d)) by assumption. unfold moved. cbn [ptzg]. rewrite tabl_at by exact Hi.
    unfold t, dir_of. cbn [dzg]. fold d. unfold ny. rewrite <- Nat.add_assoc. lra.
Qed.
End Point.
