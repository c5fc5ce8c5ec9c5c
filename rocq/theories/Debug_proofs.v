(** Proofs for C99. *)
From Coq Require Import List Arith Bool ZArith Lia Permutation.
From Verif Require Import Num Num_facts Loop_model Loop_spec Loop_proofs Index_model Index_spec Debug_model.
Import ListNotations.

(** ** Stability.cpp:76 *)
Definition basic_ok (nx : nat) (jb : list nat) : Prop := jb <> [] /\ NoDup jb /\ Forall (fun j => j < nx) jb.

Lemma contains_In i l : contains i l = true <-> In i l.
Proof.
  induction l as [|j l IH]; cbn; [split; [discriminate|tauto]|].
  destruct (Nat.eqb_spec j i) as [->|D]; [tauto|]. rewrite IH. split; [auto|]. intros [E|E]; [congruence|exact E].
Qed.

Lemma assert_76 part nx jb : partition_contract part -> basic_ok nx jb -> stability_assert_76 part nx jb = true.
Proof.
  intros PC (NE & ND & LT). unfold stability_assert_76, moveIntersectionLeft, moveLeftIf, indices.
  destruct (Nat.eqb_spec (length jb) 0) as [E|_]; [destruct jb; [contradiction|discriminate]|].
  destruct (part _ _) as [out k] eqn:E. cbn [snd]. destruct (PC _ _ _ _ E) as (P1 & P2 & P3 & P4).
  apply Nat.eqb_eq. rewrite <- (firstn_length_le out P2).
  assert (NDo : NoDup out) by (eapply Permutation_NoDup; [exact P1|apply seq_NoDup]).
  assert (NDk : NoDup (firstn k out)).
  { rewrite <- (firstn_skipn k out) in NDo. revert NDo. generalize (firstn k out), (skipn k out). intros a b.
    induction a as [|x a IH]; cbn; intros H; [constructor|]. inversion H; subst. constructor; [|auto]. rewrite in_app_iff in *. tauto. }
  apply Permutation_length. apply NoDup_Permutation; [exact NDk|exact ND|]. intros i. split; intros H.
  - apply contains_In. apply P3. exact H.
  - assert (L : i < nx) by (rewrite Forall_forall in LT; auto).
    assert (Io : In i out) by (eapply Permutation_in; [exact P1|apply in_seq; lia]).
    rewrite <- (firstn_skipn k out), in_app_iff in Io. destruct Io as [Io|Io]; [exact Io|].
    apply P4 in Io. apply contains_In in H. congruence.
Qed.

Lemma assert_76_empty part nx : 0 < nx -> stability_assert_76 part nx [] = false.
Proof. intros H. unfold stability_assert_76, moveIntersectionLeft, indices. cbn [length Nat.eqb snd]. rewrite seq_length. destruct nx; [lia|reflexivity]. Qed.

(** ** BacktrackSearch.cpp:61-64 *)
Section Number.
Context {T : Type} {N : Num T} {NT : NumTot T}.
Definition number (u : uvec T) : bool := forallb (fun t => negb (nnan t)) (ux u ++ up u).

Lemma all_le_nth (a b : list T) : length a = length b ->
  all_le a b = true <-> forall i, i < length a -> nleb (nth i a nzero) (nth i b nzero) = true.
Proof.
  unfold all_le. revert b. induction a as [|x a IH]; intros [|y b]; cbn [length combine forallb]; intros E; try discriminate.
  - split; [intros _ i H; lia|reflexivity].
  - injection E as E. cbn [fst snd]. rewrite andb_true_iff, (IH _ E). split.
    + intros [H1 H2] [|i] L; cbn; [exact H1|]. apply H2. lia.
    + intros H. split; [apply (H 0); lia|]. intros i L. apply (H (S i)). lia.
Qed.

Lemma within_le (lo v hi : list T) : length lo = length v -> length v = length hi -> within lo v hi ->
  all_le v hi && all_le lo v = forallb (fun t => negb (nnan t)) v.
Proof.
  intros E1 E2 H. apply eq_true_iff_eq. rewrite andb_true_iff, (all_le_nth _ _ E2), (all_le_nth _ _ E1), forallb_forall. split.
  - intros [H1 _] t I. apply (In_nth _ _ nzero) in I. destruct I as (i & L & <-). specialize (H1 i L).
    apply nle_nan in H1. destruct H1 as [H1 _]. rewrite H1. reflexivity.
  - intros Hn. assert (G : forall i, i < length v -> nleb (nth i lo nzero) (nth i v nzero) = true /\ nleb (nth i v nzero) (nth i hi nzero) = true).
    { intros i L. destruct (H i L) as [F|F]; [|exact F]. specialize (Hn _ (nth_In v nzero L)). rewrite F in Hn. discriminate. }
    split; intros i L; apply G; lia.
Qed.

Lemma bt_number nx np nw (B : bounds T) u : good_bounds nx np B -> sized nx np nw u -> inbox B u -> bt_asserts B u = number u.
Proof.
  intros G (S1 & S2 & _) [I1 I2]. destruct (good_lengths nx np B G) as (L1 & L2 & L3 & L4).
  unfold bt_asserts, number. rewrite forallb_app. rewrite <- (within_le (xlo B) (ux u) (xhi B)), <- (within_le (plo B) (up u) (phi_ B)); auto; try congruence.
  rewrite <- !andb_assoc. reflexivity.
Qed.
End Number.

Section Run.
Context {T : Type} {N : Num T} {NT : NumTot T}.
Variable part : partition_impl.
Hypothesis PC : partition_contract part.
Variable W : Type.
Variable fupdate : W -> uvec T -> W.
Variable ferror : W -> uvec T -> T.
Variable newton : W -> W * uvec T.
Variable phi : option (W -> list T -> list T -> W * bool * list T).
Variable check : option (W -> uvec T -> uvec T -> T -> nat -> bool).
Variable basic : W -> list nat.
Variable d : dims.
Variable B : bounds T.
Hypothesis GB : good_bounds (d_nx d) (d_np d) B.
Hypothesis Hnx : 0 < d_nx d.
Hypothesis Hny : 0 < d_ny d.
Hypothesis Hb : d_b d = d_ny d.
Notation siz := (sized (d_nx d) (d_np d) (d_nw d)).
Hypothesis HB : forall w u, siz u -> basic_ok (d_nx d) (basic (fupdate w u)).
Hypothesis HN : forall w, siz (snd (newton w)).
Hypothesis HP : forall ph w xo x, phi = Some ph -> length x = d_nx d -> length (snd (ph w xo x)) = d_nx d.

Notation update := (update W fupdate ferror).
Notation update_d := (update_d part W fupdate ferror basic d).
Notation step := (step W fupdate ferror newton phi).
Notation step_d := (step_d part W fupdate ferror newton phi basic d).
Notation transform_d := (transform_d part W fupdate ferror phi basic d).
Notation loop_d := (loop_d part W fupdate ferror newton phi check basic d).

Lemma size_true (u : uvec T) : siz u -> size_asserts d u = true.
Proof. intros (E1 & E2 & E3). unfold size_asserts. rewrite E1, E2, E3, !Nat.eqb_refl. reflexivity. Qed.

Lemma rows_pos : rows_update d <> 0.
Proof. unfold rows_update. destruct (Nat.eqb _ 0); lia. Qed.

Lemma update_ok rows s u : rows <> 0 -> siz u -> update_d rows s u = Done (rows_update d, update s u).
Proof.
  intros R Z. unfold Debug_model.update_d. rewrite (size_true u Z), Hb, Nat.eqb_refl.
  destruct (Nat.eqb_spec (d_nw d * (d_nx d + d_np d)) 0) as [E|_].
  { exfalso. apply Nat.eq_mul_0 in E. unfold d_nw in E. lia. }
  destruct (Nat.eqb_spec rows 0) as [E|_]; [contradiction|]. cbn zeta. cbn [negb assert_ andb].
  rewrite (assert_76 _ _ _ PC); [|apply HB; exact Z]. cbn [assert_].
  destruct (Nat.ltb_spec 0 (d_nx d)) as [_|E]; [reflexivity|lia].
Qed.

Lemma transform_ok rows s : rows <> 0 -> siz (s_uo s) -> siz (s_u s) ->
  exists rows', rows' <> 0 /\ transform_d B rows s = Done (rows', fst (transform W fupdate ferror phi B s)) /\
    s_uo (fst (transform W fupdate ferror phi B s)) = s_uo s /\ siz (s_u (fst (transform W fupdate ferror phi B s))).
Proof.
  intros R Zo Z. unfold Debug_model.transform_d, transform. destruct phi as [ph|] eqn:EP; [|exists rows; auto].
  destruct (ph (s_w s) (ux (s_uo s)) (ux (s_u s))) as [[w out] x] eqn:E. 
  assert (Lx : length x = d_nx d).
  { pose proof (HP ph (s_w s) (ux (s_uo s)) (ux (s_u s)) eq_refl) as H. rewrite E in H. cbn in H. apply H. apply Z. }
  destruct out; cbn [negb].
  - assert (Z1 : siz (UVec (clampv x (xlo B) (xhi B)) (up (s_u s)) (uw (s_u s)))).
    { destruct Z as (_ & Z2 & Z3). destruct (good_lengths _ _ B GB) as (L1 & L2 & _).
      split; [|split]; cbn; auto. rewrite length_clampv; congruence. }
    rewrite update_ok by assumption. cbn [obind].
    destruct (ngtb _ _).
    + rewrite update_ok; [|apply rows_pos|exact Z]. exists (rows_update d). split; [apply rows_pos|]. repeat split; try reflexivity; apply Z.
    + exists (rows_update d). split; [apply rows_pos|]. repeat split; try reflexivity; apply Z1.
  - rewrite update_ok by assumption. exists (rows_update d). split; [apply rows_pos|]. repeat split; try reflexivity; apply Z.
Qed.

Lemma newton_sized s : siz (s_uo s) -> siz (s_u (newton_apply W newton s)) /\ s_uo (newton_apply W newton s) = s_uo s.
Proof.
  intros (Z1 & Z2 & Z3). unfold newton_apply. pose proof (HN (s_w s)) as (H1 & H2 & H3). destruct (newton (s_w s)) as [w du]. cbn in *.
  split; [|reflexivity]. repeat split; cbn; rewrite length_map2; lia.
Qed.

Lemma step_ok o rows s : rows <> 0 -> siz (s_uo s) -> inbox B (s_uo s) ->
  step_d B o rows s = (if number (s_uo s) then Done (rows_update d, step B o s) else Aborted).
Proof.
  intros R Z I. unfold Debug_model.step_d, Loop_model.step.
  set (s0 := State (s_w s) (s_uo s) (s_u s) (s_err s) (S (s_iters s)) (s_hist s) (s_evals s) (s_iterates s)).
  destruct (newton_sized s0 Z) as [Zn En]. change (s_uo s0) with (s_uo s) in En.
  destruct (transform_ok rows (newton_apply W newton s0) R) as (rows' & R' & E & Eu & Zt); [rewrite En; exact Z|exact Zn|].
  rewrite E. cbn [obind]. destruct (transform W fupdate ferror phi B (newton_apply W newton s0)) as [s1 b]. cbn [fst] in *.
  rewrite Eu, En, (bt_number _ _ _ B (s_uo s) GB Z I). destruct (number (s_uo s)); [|reflexivity]. cbn [assert_].
  rewrite update_ok; [reflexivity|exact R'|]. cbn. apply backtrack_sized; assumption.
Qed.

Lemma loop_ok o fuel : forall rows s s', rows <> 0 -> siz (s_uo s) -> inbox B (s_uo s) ->
  loop W fupdate ferror newton phi check fuel B o s = Some s' ->
  exists newer, s_iterates s' = newer ++ s_iterates s /\ newer <> [] /\
    loop_d fuel B o rows s = Some (if forallb number (tl newer ++ [s_uo s]) then Done s' else Aborted).
Proof.
  induction fuel as [|fuel IH]; intros rows s s' R Z I; [discriminate|]. cbn [loop Debug_model.loop_d]. intros E.
  rewrite (step_ok o rows s R Z I).
  pose proof (step_frame W fupdate ferror newton phi B o s) as F. cbn zeta in F. destruct F as (_ & _ & _ & F4 & _).
  assert (SZ : siz (s_u (step B o s))) by (apply step_sized; auto).
  assert (SI : inbox B (s_u (step B o s))).
  { unfold Loop_model.step. destruct (transform _ _ _ _ _ _) as [s1 b]. cbn. apply backtrack_inbox with (d_nx d) (d_np d). exact GB. }
  pose proof (stepping_frame W check o (step B o s)) as S.
  destruct (stepping W check o (step B o s)) as [s1 c] eqn:ES. destruct S as (_ & S2 & _ & _ & _ & _ & S7 & S8 & _).
  destruct c.
  - destruct (S8 eq_refl) as (_ & U & _).
    assert (Z1 : siz (s_uo s1)) by (rewrite U, S2; exact SZ).
    assert (I1 : inbox B (s_uo s1)) by (rewrite U, S2; exact SI).
    destruct (IH (rows_update d) s1 s' rows_pos Z1 I1 E) as (newer & E1 & NE & E2).
    exists (newer ++ [s_uo s1]). split; [|split].
    + rewrite E1, S7, F4, U, S2, <- app_assoc. reflexivity.
    + destruct newer; discriminate.
    + destruct newer as [|n newer]; [contradiction|]. cbn [tl app] in *. rewrite (forallb_app number (newer ++ [s_uo s1])).
      cbn [forallb]. rewrite andb_true_r. destruct (number (s_uo s)).
      * rewrite ES, E2, andb_true_r. reflexivity.
      * rewrite andb_false_r. reflexivity.
  - injection E as <-. exists [s_u (step B o s)]. split; [rewrite S7, F4; reflexivity|]. split; [discriminate|].
    cbn. rewrite andb_true_r. destruct (number (s_uo s)); [rewrite ES|]; reflexivity.
Qed.

Lemma solve_ok o fuel w hist u r s : siz u ->
  solve W fupdate ferror newton phi check fuel B o w hist u = Some (r, s) ->
  solve_d part W fupdate ferror newton phi check basic d fuel B o w hist u =
    Some (if forallb number (tl (s_iterates s)) then Done (r, s) else Aborted).
Proof.
  intros Z. unfold solve, solve_d. destruct (loop _ _ _ _ _ _ _ _ _ _) as [s'|] eqn:E; [|discriminate]. intros H. injection H as <- <-.
  pose proof (good_lengths _ _ B GB) as (L1 & L2 & L3 & L4).
  unfold initialize_d, bound_asserts. rewrite L1, L2, L3, L4, !Nat.eqb_refl, (size_true u Z). cbn [assert_ andb].
  assert (ZC : siz (clampu B u)) by (apply clampu_sized; assumption).
  rewrite update_ok; [|unfold rows_init; lia|exact ZC]. cbn [obind].
  destruct (loop_ok o fuel (rows_update d) (initialize W fupdate ferror B w hist u) s' rows_pos ZC (clampu_inbox B _ _ u GB) E) as (newer & E1 & NE & E2).
  unfold initialize in E2. cbn zeta in E2. rewrite E2, E1. cbn [initialize s_iterates].
  destruct newer as [|n newer]; [contradiction|]. cbn [tl app].
  cbn [s_uo]. destruct (forallb number (newer ++ [clampu B u])); reflexivity.
Qed.
End Run.
