From Coq Require Import List Arith Bool Permutation Lia Reals Lra.
From Coq Require Import Floats.SpecFloat ZArith.
Import ListNotations.
From Verif Require Import Num Index_model Index_spec.

Lemma contains_In i l : contains i l = true <-> In i l.
Proof.
  induction l as [|j l IH]; simpl; [split; [discriminate|tauto]|].
  destruct (Nat.eqb_spec j i); [subst; tauto|]. rewrite IH. split; [tauto|].
  intros [H|H]; [contradiction|exact H].
Qed.

Lemma contains_false i l : contains i l = false <-> ~ In i l.
Proof.
  rewrite <- contains_In. destruct (contains i l); split; congruence.
Qed.

Lemma Permutation_filter (p : nat -> bool) l l' :
  Permutation l l' -> Permutation (filter p l) (filter p l').
Proof.
  induction 1 as [|x l l' H IH|x y l|l l' l'' H1 IH1 H2 IH2]; simpl.
  - constructor.
  - destruct (p x); [constructor|]; exact IH.
  - destruct (p x), (p y); try apply perm_swap; try apply Permutation_refl.
  - eapply Permutation_trans; eassumption.
Qed.

Lemma filter_true (p : nat -> bool) l : (forall i, In i l -> p i = true) -> filter p l = l.
Proof.
  induction l as [|x l IH]; intros H; simpl; [reflexivity|].
  rewrite (H x (or_introl eq_refl)), IH; [reflexivity|]. intros i Hi; apply H; right; exact Hi.
Qed.

Lemma filter_false (p : nat -> bool) l : (forall i, In i l -> p i = false) -> filter p l = [].
Proof.
  induction l as [|x l IH]; intros H; simpl; [reflexivity|].
  rewrite (H x (or_introl eq_refl)). apply IH. intros i Hi; apply H; right; exact Hi.
Qed.

Lemma splits_count base out k (p : nat -> bool) :
  splits base out k (fun i => p i = true) -> k = length (filter p base).
Proof.
  intros (Hp & Hk & H1 & H2).
  rewrite (Permutation_length (Permutation_filter p _ _ Hp)).
  rewrite <- (firstn_skipn k out) at 1. rewrite filter_app, app_length.
  rewrite filter_true by exact H1. rewrite filter_false, firstn_length; simpl; [lia|].
  intros i Hi. specialize (H2 i Hi). destruct (p i); congruence.
Qed.

Lemma contract_splits part p l out k :
  partition_contract part -> part p l = (out, k) -> splits l out k (fun i => p i = true).
Proof.
  intros Hc He. destruct (Hc _ _ _ _ He) as (H1 & H2 & H3 & H4).
  repeat split; try assumption. intros i Hi Hpi. rewrite (H4 i Hi) in Hpi. discriminate.
Qed.

Lemma stable_splits p l :
  splits l (fst (std_stable_partition p l)) (snd (std_stable_partition p l)) (fun i => p i = true).
Proof.
  unfold std_stable_partition; simpl. repeat split.
  - induction l as [|x l IH]; simpl; [constructor|]. destruct (p x); simpl.
    + constructor; exact IH.
    + eapply Permutation_trans; [constructor; exact IH|]. apply Permutation_middle.
  - rewrite app_length; lia.
  - intros i. rewrite firstn_app, firstn_all, Nat.sub_diag, firstn_O, app_nil_r.
    intros H; apply filter_In in H; tauto.
  - intros i. rewrite skipn_app, skipn_all, Nat.sub_diag; simpl.
    intros H; apply filter_In in H. destruct H as [_ H]. destruct (p i); [discriminate|congruence].
Qed.

Lemma splits_ext base out k g1 g2 :
  (forall i, g1 i <-> g2 i) -> splits base out k g1 -> splits base out k g2.
Proof.
  intros H (A & B & C & D). repeat split; try assumption.
  - intros i Hi; apply H, C, Hi.
  - intros i Hi Hg; apply (D i Hi), H, Hg.
Qed.

Lemma moveLeftIf_splits part : partition_contract part -> forall base p out k,
  moveLeftIf part base p = (out, k) ->
  splits base out k (fun i => p i = true) /\ k = length (filter p base).
Proof.
  intros Hc base p out k H. pose proof (contract_splits _ _ _ _ _ Hc H) as Hs.
  split; [exact Hs|]. eapply splits_count; exact Hs.
Qed.

Lemma negb_true_iff' (p : nat -> bool) i : negb (p i) = true <-> p i = false.
Proof. destruct (p i); simpl; split; congruence. Qed.

Lemma moveRightIf_splits part : partition_contract part -> forall base p out k,
  moveRightIf part base p = (out, k) ->
  splits base out k (fun i => p i = false) /\ k = length (filter (fun i => negb (p i)) base).
Proof.
  intros Hc base p out k H. pose proof (contract_splits _ _ _ _ _ Hc H) as Hs.
  split; [|eapply splits_count; exact Hs].
  eapply splits_ext; [|exact Hs]. intros i; apply negb_true_iff'.
Qed.

Lemma stableMoveLeftIf_splits base p out k :
  stableMoveLeftIf base p = (out, k) ->
  splits base out k (fun i => p i = true) /\ k = length (filter p base) /\
  firstn k out = filter p base /\ skipn k out = filter (fun i => negb (p i)) base.
Proof.
  intros H. pose proof (stable_splits p base) as Hs.
  unfold stableMoveLeftIf in H. rewrite H in Hs; simpl in Hs.
  inversion H; subst. split; [exact Hs|]. split; [reflexivity|]. split.
  - rewrite firstn_app, firstn_all, Nat.sub_diag, firstn_O, app_nil_r. reflexivity.
  - rewrite skipn_app, skipn_all, Nat.sub_diag. reflexivity.
Qed.

Lemma stableMoveRightIf_splits base p out k :
  stableMoveRightIf base p = (out, k) ->
  splits base out k (fun i => p i = false) /\ k = length (filter (fun i => negb (p i)) base) /\
  firstn k out = filter (fun i => negb (p i)) base /\ skipn k out = filter p base.
Proof.
  intros H. destruct (stableMoveLeftIf_splits base (fun i => negb (p i)) out k H) as (A & B & C & D).
  split; [|split; [exact B|split; [exact C|]]].
  - eapply splits_ext; [|exact A]. intros i; apply negb_true_iff'.
  - rewrite D. apply filter_ext. intros i; apply negb_involutive.
Qed.

Lemma length_eqb_0 (p : list nat) : p <> [] -> Nat.eqb (length p) 0 = false.
Proof. destruct p; [congruence|reflexivity]. Qed.

Lemma moveIntersectionLeft_splits part : partition_contract part -> forall base p out k,
  p <> [] -> moveIntersectionLeft part base p = (out, k) -> splits base out k (fun i => In i p).
Proof.
  intros Hc base p out k Hp H. unfold moveIntersectionLeft in H.
  rewrite length_eqb_0 in H by exact Hp.
  destruct (moveLeftIf_splits part Hc _ _ _ _ H) as [Hs _].
  eapply splits_ext; [|exact Hs]. intros i; apply contains_In.
Qed.

Lemma moveIntersectionLeftStable_splits base p out k :
  p <> [] -> moveIntersectionLeftStable base p = (out, k) ->
  splits base out k (fun i => In i p).
Proof.
  intros Hp H. unfold moveIntersectionLeftStable in H. rewrite length_eqb_0 in H by exact Hp.
  destruct (stableMoveLeftIf_splits _ _ _ _ H) as [Hs _].
  eapply splits_ext; [|exact Hs]. intros i; apply contains_In.
Qed.

Lemma splits_none base : splits base base (length base) (fun i => ~ In i []).
Proof.
  repeat split; try apply Permutation_refl; try lia; [intros i _ []|].
  intros i Hi. rewrite skipn_all in Hi. destruct Hi.
Qed.

Lemma moveIntersectionRight_splits part : partition_contract part -> forall base p out k,
  moveIntersectionRight part base p = (out, k) -> splits base out k (fun i => ~ In i p).
Proof.
  intros Hc base p out k H. unfold moveIntersectionRight in H. destruct p as [|a p].
  - inversion H; subst. apply splits_none.
  - destruct (moveRightIf_splits part Hc _ _ _ _ H) as [Hs _].
    eapply splits_ext; [|exact Hs]. intros i; apply contains_false.
Qed.

Lemma moveIntersectionRightStable_splits base p out k :
  moveIntersectionRightStable base p = (out, k) -> splits base out k (fun i => ~ In i p).
Proof.
  intros H. unfold moveIntersectionRightStable in H. destruct p as [|a p].
  - inversion H; subst. apply splits_none.
  - destruct (stableMoveRightIf_splits _ _ _ _ H) as [Hs _].
    eapply splits_ext; [|exact Hs]. intros i; apply contains_false.
Qed.

(** Order kept by the stable versions: that of base *)
Lemma moveIntersectionRightStable_order base p out k :
  moveIntersectionRightStable base p = (out, k) ->
  firstn k out = filter (fun i => negb (contains i p)) base /\
  skipn k out = filter (fun i => contains i p) base.
Proof.
  intros H. unfold moveIntersectionRightStable in H. destruct p as [|a p].
  - inversion H; subst. rewrite firstn_all, skipn_all. split; symmetry.
    + apply filter_true; reflexivity.
    + apply filter_false; reflexivity.
  - destruct (stableMoveRightIf_splits _ _ _ _ H) as (_ & _ & A & B). split; assumption.
Qed.

Lemma moveIntersectionLeftStable_order base p out k :
  p <> [] -> moveIntersectionLeftStable base p = (out, k) ->
  firstn k out = filter (fun i => contains i p) base /\
  skipn k out = filter (fun i => negb (contains i p)) base.
Proof.
  intros Hp H. unfold moveIntersectionLeftStable in H. rewrite length_eqb_0 in H by exact Hp.
  destruct (stableMoveLeftIf_splits _ _ _ _ H) as (_ & _ & A & B). split; assumption.
Qed.

(** difference / intersect *)
Lemma splits_firstn_filter base out k g (p : nat -> bool) :
  (forall i, p i = true <-> g i) -> splits base out k g ->
  Permutation (firstn k out) (filter p base).
Proof.
  intros Hg (Hp & Hk & H1 & H2).
  eapply Permutation_trans; [|apply Permutation_filter, Permutation_sym, Hp].
  rewrite <- (firstn_skipn k out) at 2. rewrite filter_app.
  rewrite filter_true, filter_false, app_nil_r; [apply Permutation_refl| |].
  - intros i Hi. destruct (p i) eqn:E; [|reflexivity]. exfalso; apply (H2 i Hi), Hg, E.
  - intros i Hi; apply Hg, H1, Hi.
Qed.

Lemma splits_skipn_filter base out k g (p : nat -> bool) :
  (forall i, p i = true <-> g i) -> splits base out k g ->
  Permutation (skipn k out) (filter (fun i => negb (p i)) base).
Proof.
  intros Hg (Hp & Hk & H1 & H2).
  eapply Permutation_trans; [|apply Permutation_filter, Permutation_sym, Hp].
  rewrite <- (firstn_skipn k out) at 2. rewrite filter_app.
  rewrite filter_false, filter_true; [apply Permutation_refl| |].
  - intros i Hi. destruct (p i) eqn:E; [|reflexivity]. exfalso; apply (H2 i Hi), Hg, E.
  - intros i Hi. rewrite (proj2 (Hg i) (H1 i Hi)). reflexivity.
Qed.

Lemma not_contains_iff l i : negb (contains i l) = true <-> ~ In i l.
Proof. rewrite negb_true_iff. apply contains_false. Qed.

Lemma difference_filter part : partition_contract part -> forall a b,
  Permutation (difference part a b) (filter (fun i => negb (contains i b)) a).
Proof.
  intros Hc a b. unfold difference.
  destruct (moveIntersectionRight part a b) as [out k] eqn:E.
  apply (splits_firstn_filter _ _ _ (fun i => ~ In i b)).
  - intros i; apply not_contains_iff.
  - eapply moveIntersectionRight_splits; eassumption.
Qed.

Lemma intersect_filter part : partition_contract part -> forall a b,
  Permutation (intersect part a b) (filter (fun i => contains i b) a).
Proof.
  intros Hc a b. unfold intersect.
  destruct (moveIntersectionRight part a b) as [out k] eqn:E.
  pose proof (moveIntersectionRight_splits part Hc _ _ _ _ E) as Hs.
  replace (length out - (length out - k)) with k by (destruct Hs; lia).
  eapply Permutation_trans.
  - apply (splits_skipn_filter a _ _ (fun i => ~ In i b) (fun i => negb (contains i b)));
      [intros i; apply not_contains_iff|exact Hs].
  - erewrite filter_ext; [apply Permutation_refl|]. intros i; apply negb_involutive.
Qed.

Lemma count_occ_filter (p : nat -> bool) l i :
  count_occ Nat.eq_dec (filter p l) i = if p i then count_occ Nat.eq_dec l i else 0.
Proof.
  induction l as [|x l IH]; simpl; [destruct (p i); reflexivity|].
  destruct (p x) eqn:Ex; simpl; destruct (Nat.eq_dec x i) as [->|Hx]; rewrite ?IH, ?Ex; try reflexivity.
Qed.

Lemma difference_count part : partition_contract part -> forall a b i,
  (In i b -> count_occ Nat.eq_dec (difference part a b) i = 0) /\
  (~ In i b -> count_occ Nat.eq_dec (difference part a b) i = count_occ Nat.eq_dec a i).
Proof.
  intros Hc a b i. pose proof (difference_filter part Hc a b) as H.
  rewrite (Permutation_count_occ Nat.eq_dec) in H. rewrite H, count_occ_filter.
  split; intros Hi.
  - apply contains_In in Hi. rewrite Hi. reflexivity.
  - apply contains_false in Hi. rewrite Hi. reflexivity.
Qed.

Lemma intersect_count part : partition_contract part -> forall a b i,
  (In i b -> count_occ Nat.eq_dec (intersect part a b) i = count_occ Nat.eq_dec a i) /\
  (~ In i b -> count_occ Nat.eq_dec (intersect part a b) i = 0).
Proof.
  intros Hc a b i. pose proof (intersect_filter part Hc a b) as H.
  rewrite (Permutation_count_occ Nat.eq_dec) in H. rewrite H, count_occ_filter.
  split; intros Hi.
  - apply contains_In in Hi. rewrite Hi. reflexivity.
  - apply contains_false in Hi. rewrite Hi. reflexivity.
Qed.

Lemma difference_intersect_perm part : partition_contract part -> forall a b,
  Permutation a (difference part a b ++ intersect part a b).
Proof.
  intros Hc a b. unfold difference, intersect.
  destruct (moveIntersectionRight part a b) as [out k] eqn:E.
  pose proof (moveIntersectionRight_splits part Hc _ _ _ _ E) as Hs.
  replace (length out - (length out - k)) with k by (destruct Hs; lia).
  rewrite firstn_skipn. apply Hs.
Qed.

Lemma isIntersectionEmpty_iff a b :
  isIntersectionEmpty a b = true <-> (forall i, In i a -> In i b -> False).
Proof.
  induction a as [|x a IH]; simpl; [split; [tauto|reflexivity]|].
  destruct (contains x b) eqn:E.
  - apply contains_In in E. split; [discriminate|]. intros H; exfalso; eapply H; eauto.
  - apply contains_false in E. rewrite IH. split.
    + intros H i [->|Hi]; [exact E|apply H, Hi].
    + intros H i Hi; apply H; right; exact Hi.
Qed.

(** The libstdc++ loop meets the contract *)
Lemma span_true_spec p l : let '(a, b) := span_true p l in
  l = a ++ b /\ (forall i, In i a -> p i = true) /\ (match b with x :: _ => p x = false | [] => True end).
Proof.
  induction l as [|x l IH]; simpl; [repeat split; intros i []|].
  destruct (p x) eqn:Ex.
  - destruct (span_true p l) as [a b]. destruct IH as (-> & Ha & Hb). repeat split; [|exact Hb].
    intros i [->|Hi]; [exact Ex|apply Ha, Hi].
  - repeat split; [intros i []|exact Ex].
Qed.

Lemma split_last_spec p l :
  match split_last p l with
  | Some (m, y, t) => l = m ++ y :: t /\ p y = true /\ (forall i, In i t -> p i = false)
  | None => forall i, In i l -> p i = false
  end.
Proof.
  induction l as [|x l IH]; simpl; [intros i []|].
  destruct (split_last p l) as [[[m y] t]|].
  - destruct IH as (-> & Hy & Ht). repeat split; assumption.
  - destruct (p x) eqn:Ex; [repeat split; assumption|].
    intros i [->|Hi]; [exact Ex|apply IH, Hi].
Qed.

Lemma part_loop_spec fuel : forall p l out k, length l < fuel -> part_loop fuel p l = (out, k) ->
  Permutation l out /\ k <= length out /\
  (forall i, In i (firstn k out) -> p i = true) /\ (forall i, In i (skipn k out) -> p i = false).
Proof.
  induction fuel as [|fuel IH]; intros p l out k Hf H; [lia|].
  cbn [part_loop] in H. pose proof (span_true_spec p l) as Hsp.
  destruct (span_true p l) as [pre rest]. destruct Hsp as (-> & Hpre & Hrest).
  destruct rest as [|x r].
  - inversion H; subst. rewrite app_nil_r, firstn_all, skipn_all. repeat split; auto. intros i [].
  - pose proof (split_last_spec p r) as Hl. destruct (split_last p r) as [[[m y] t]|].
    + destruct Hl as (-> & Hy & Ht). destruct (part_loop fuel p m) as [m' k'] eqn:Em.
      assert (Hm : length m < fuel).
      { rewrite app_length in Hf; simpl in Hf. rewrite app_length in Hf. simpl in Hf. lia. }
      destruct (IH _ _ _ _ Hm Em) as (A & B & C & D).
      inversion H; subst; clear H. repeat split.
      * apply Permutation_app_head.
        transitivity (y :: m ++ x :: t).
        -- transitivity (x :: y :: m ++ t).
           ++ constructor. symmetry. apply Permutation_middle.
           ++ rewrite perm_swap. constructor. apply Permutation_middle.
        -- constructor. apply Permutation_app_tail, A.
      * rewrite !app_length; simpl. rewrite app_length; simpl. lia.
      * intros i. rewrite firstn_app, firstn_all2 by lia.
        replace (length pre + 1 + k' - length pre) with (S k') by lia. cbn [firstn].
        rewrite firstn_app. replace (k' - length m') with 0 by lia. rewrite firstn_O, app_nil_r.
        intros Hi; apply in_app_or in Hi. destruct Hi as [Hi|[<-|Hi]]; [apply Hpre, Hi|exact Hy|apply C, Hi].
      * intros i. rewrite skipn_app, skipn_all2 by lia.
        replace (length pre + 1 + k' - length pre) with (S k') by lia. cbn [skipn].
        rewrite skipn_app. replace (k' - length m') with 0 by lia. cbn [skipn app].
        intros Hi; apply in_app_or in Hi. destruct Hi as [Hi|[<-|Hi]]; [apply D, Hi|exact Hrest|apply Ht, Hi].
    + inversion H; subst; clear H. repeat split.
      * apply Permutation_refl.
      * rewrite app_length; lia.
      * intros i. rewrite firstn_app, firstn_all, Nat.sub_diag, firstn_O, app_nil_r. apply Hpre.
      * intros i. rewrite skipn_app, skipn_all, Nat.sub_diag. cbn [skipn app].
        intros [<-|Hi]; [exact Hrest|apply Hl, Hi].
Qed.

Lemma libstdcxx_contract : partition_contract libstdcxx_partition.
Proof.
  intros p l out k H. eapply part_loop_spec; [|exact H]. lia.
Qed.

(** StablePartition *)
Definition sp_inv (nx : nat) (s : stable_partition) : Prop :=
  Permutation (sp_jsu s) (indices nx) /\ sp_ns s <= length (sp_jsu s).

Lemma sp_step_inv part nx s c : partition_contract part -> sp_inv nx s -> sp_inv nx (sp_step part s c).
Proof.
  intros Hc [H1 H2]. destruct c as [js|ju]; simpl.
  - unfold sp_setStable. destruct (moveIntersectionLeft part (sp_jsu s) js) as [out k] eqn:E.
    destruct js as [|a js].
    + inversion E; subst. split; simpl; [exact H1|lia].
    + assert (Hn : a :: js <> []) by discriminate.
      destruct (moveIntersectionLeft_splits part Hc _ _ _ _ Hn E) as (A & B & _).
      split; simpl; [|exact B]. eapply Permutation_trans; [apply Permutation_sym, A|exact H1].
  - unfold sp_setUnstable. destruct (moveIntersectionRight part (sp_jsu s) ju) as [out k] eqn:E.
    destruct (moveIntersectionRight_splits part Hc _ _ _ _ E) as (A & B & _).
    split; simpl; [|exact B]. eapply Permutation_trans; [apply Permutation_sym, A|exact H1].
Qed.

Lemma sp_run_inv part nx h : partition_contract part -> sp_inv nx (sp_run part nx h).
Proof.
  intros Hc. unfold sp_run.
  assert (H0 : sp_inv nx (sp_init nx)).
  { split; simpl; [apply Permutation_refl|]. unfold indices; rewrite seq_length; lia. }
  revert H0. generalize (sp_init nx). induction h as [|c h IH]; intros s Hs; simpl; [exact Hs|].
  apply IH, sp_step_inv; assumption.
Qed.

Lemma sp_parts s : sp_ns s <= length (sp_jsu s) -> sp_stable s ++ sp_unstable s = sp_jsu s.
Proof.
  intros H. unfold sp_stable, sp_unstable.
  replace (length (sp_jsu s) - (length (sp_jsu s) - sp_ns s)) with (sp_ns s) by lia.
  apply firstn_skipn.
Qed.

Lemma sp_run_partition part nx h : partition_contract part ->
  Permutation (sp_stable (sp_run part nx h) ++ sp_unstable (sp_run part nx h)) (seq 0 nx).
Proof.
  intros Hc. destruct (sp_run_inv part nx h Hc) as [H1 H2]. rewrite sp_parts by exact H2. exact H1.
Qed.

Lemma sub_perm_filter nx js l : Permutation l (seq 0 nx) -> NoDup js ->
  (forall i, In i js -> i < nx) -> Permutation (filter (fun i => contains i js) l) js.
Proof.
  intros Hl Hn Hr. apply NoDup_Permutation.
  - apply NoDup_filter. eapply Permutation_NoDup; [apply Permutation_sym, Hl|apply seq_NoDup].
  - exact Hn.
  - intros i. rewrite filter_In, contains_In. split; [tauto|]. intros Hi; split; [|exact Hi].
    eapply Permutation_in; [apply Permutation_sym, Hl|]. apply in_seq. specialize (Hr i Hi); lia.
Qed.

Lemma sp_setStable_exact part nx h js : partition_contract part -> js <> [] -> NoDup js ->
  (forall i, In i js -> i < nx) ->
  let s := sp_setStable part (sp_run part nx h) js in
  Permutation (sp_stable s) js /\ sp_setStable_assert part (sp_run part nx h) js = true.
Proof.
  intros Hc Hne Hnd Hr. destruct (sp_run_inv part nx h Hc) as [H1 H2].
  unfold sp_setStable_assert, sp_setStable, sp_stable.
  destruct (moveIntersectionLeft part (sp_jsu (sp_run part nx h)) js) as [out k] eqn:E. simpl.
  pose proof (moveIntersectionLeft_splits part Hc _ _ _ _ Hne E) as Hs.
  assert (HP : Permutation (firstn k out) js).
  { eapply Permutation_trans.
    - apply (splits_firstn_filter (sp_jsu (sp_run part nx h)) _ _ (fun i => In i js) (fun i => contains i js));
        [intros i; apply contains_In|exact Hs].
    - apply (sub_perm_filter nx); assumption. }
  split; [exact HP|]. apply Nat.eqb_eq.
  rewrite <- (Permutation_length HP), firstn_length. destruct Hs as (_ & B & _). lia.
Qed.

Lemma sp_setUnstable_exact part nx h ju : partition_contract part -> NoDup ju ->
  (forall i, In i ju -> i < nx) ->
  let s := sp_setUnstable part (sp_run part nx h) ju in
  Permutation (sp_unstable s) ju /\ sp_setUnstable_assert part (sp_run part nx h) ju = true.
Proof.
  intros Hc Hnd Hr. destruct (sp_run_inv part nx h Hc) as [H1 H2].
  unfold sp_setUnstable_assert, sp_setUnstable, sp_unstable.
  destruct (moveIntersectionRight part (sp_jsu (sp_run part nx h)) ju) as [out k] eqn:E. simpl.
  pose proof (moveIntersectionRight_splits part Hc _ _ _ _ E) as Hs.
  destruct Hs as (A & B & C & D).
  replace (length out - (length out - k)) with k by lia.
  assert (HP : Permutation (skipn k out) ju).
  { eapply Permutation_trans.
    - apply (splits_skipn_filter (sp_jsu (sp_run part nx h)) _ _ (fun i => ~ In i ju) (fun i => negb (contains i ju)));
        [intros i; apply not_contains_iff|repeat split; assumption].
    - erewrite filter_ext; [|intros i; apply negb_involutive].
      apply (sub_perm_filter nx); assumption. }
  split; [exact HP|]. apply Nat.eqb_eq.
  pose proof (Permutation_length HP) as L. rewrite skipn_length in L. lia.
Qed.

(** Stability *)
#[export] Instance NumAsym_R : NumAsym R.
Proof.
  intros a b. simpl. unfold rltb. destruct (Rlt_dec a b), (Rlt_dec b a); try congruence.
  intros _; exfalso; lra.
Qed.

#[export] Instance NumAsym_xreal : NumAsym xreal.
Proof.
  intros [a| | |] [b| | |]; simpl; try congruence. apply (NumAsym_R a b).
Qed.

Lemma SFcompare_antisym a b : SFcompare b a = match SFcompare a b with
  Some Lt => Some Gt | Some Gt => Some Lt | c => c end.
Proof.
  destruct a as [s|s| |s m e], b as [s'|s'| |s' m' e']; simpl; try reflexivity;
    try (destruct s, s'; reflexivity); try (destruct s; reflexivity); try (destruct s'; reflexivity).
  rewrite (Z.compare_antisym e e').
  change (Pos.compare_cont Eq m m') with (Pos.compare m m').
  change (Pos.compare_cont Eq m' m) with (Pos.compare m' m).
  rewrite (Pos.compare_antisym m m').
  destruct s, s'; try reflexivity; destruct (Z.compare e e'); simpl; try reflexivity;
    destruct (Pos.compare m m'); reflexivity.
Qed.

#[export] Instance NumAsym_b64 : NumAsym spec_float.
Proof.
  intros a b. simpl. unfold SFltb. rewrite (SFcompare_antisym a b).
  destruct (SFcompare a b) as [[]|]; congruence.
Qed.

Lemma vtail_length {A} n (l : list A) : n <= length l -> length (vtail n l) = n.
Proof. intros H. unfold vtail. rewrite skipn_length. lia. Qed.

Lemma vtail_app {A} (a b : list A) n : n = length b -> vtail n (a ++ b) = b.
Proof.
  intros ->. unfold vtail. rewrite app_length. replace (length a + length b - length b) with (length a) by lia.
  rewrite skipn_app, skipn_all, Nat.sub_diag. reflexivity.
Qed.

Lemma firstn_app_exact {A} (a b : list A) n : n = length a -> firstn n (a ++ b) = a.
Proof. intros ->. rewrite firstn_app, firstn_all, Nat.sub_diag, firstn_O, app_nil_r. reflexivity. Qed.

Section StabilityProofs.
Context {T : Type} {N : Num T} {NA : NumAsym T}.
Variable part : partition_impl.
Hypothesis Hc : partition_contract part.
Variables (Wx : list (list T)) (g x w xlower xupper : list T) (jb : list nat).

Lemma not_both_unstable s i :
  is_lower_unstable x xlower s i = true -> is_upper_unstable x xupper s i = true -> False.
Proof.
  unfold is_lower_unstable, is_upper_unstable, ngtb. intros H1 H2.
  apply andb_true_iff in H1, H2. destruct H1 as [_ H1], H2 as [_ H2].
  rewrite (nltb_asym _ _ H1) in H2. discriminate.
Qed.

Lemma stability_update_shape (t : stability) :
  jb <> [] -> NoDup jb -> (forall i, In i jb -> i < length x) ->
  t = stability_update part Wx g x w xlower xupper jb ->
  let s := stab_s Wx g w in
  exists jss jms jns jlu juu,
    st_jsu t = (jss ++ jms) ++ jns ++ jlu ++ juu /\
    st_ns t = length (jss ++ jms) + length jns /\ st_nbs t = length (jss ++ jms) /\
    st_nms t = length jms /\ st_nlu t = length jlu /\ st_nuu t = length juu /\ st_s t = s /\
    Permutation (jss ++ jms) jb /\
    Permutation (jns ++ jlu ++ juu) (filter (fun i => negb (contains i jb)) (seq 0 (length x))) /\
    (forall i, In i jss -> is_meta_stable x xlower xupper s i = false) /\
    (forall i, In i jms -> is_meta_stable x xlower xupper s i = true) /\
    (forall i, In i jns -> is_lower_unstable x xlower s i = false /\ is_upper_unstable x xupper s i = false) /\
    (forall i, In i jlu -> is_lower_unstable x xlower s i = true) /\
    (forall i, In i juu -> is_upper_unstable x xupper s i = true).
Proof.
  intros Hne Hnd Hr -> s. unfold stability_update. fold s.
  destruct (moveIntersectionLeft part (indices (length x)) jb) as [jsu1 nbs] eqn:E1.
  pose proof (moveIntersectionLeft_splits part Hc _ _ _ _ Hne E1) as S1.
  destruct (moveRightIf part (firstn nbs jsu1) (is_meta_stable x xlower xupper s)) as [jbs' nss] eqn:E2.
  destruct (moveRightIf_splits part Hc _ _ _ _ E2) as [S2 _].
  assert (L1 : length jsu1 = length x).
  { destruct S1 as (A & _). rewrite <- (Permutation_length A). unfold indices. apply seq_length. }
  assert (K1 : nbs <= length x) by (destruct S1 as (_ & B & _); lia).
  replace (length x - (length x - nbs)) with nbs by lia.
  destruct (moveRightIf part (skipn nbs jsu1) (is_upper_unstable x xupper s)) as [jnsu' pos1] eqn:E3.
  destruct (moveRightIf_splits part Hc _ _ _ _ E3) as [S3 _].
  destruct (moveRightIf part (firstn pos1 jnsu') (is_lower_unstable x xlower s)) as [jnsu'' pos2] eqn:E4.
  destruct (moveRightIf_splits part Hc _ _ _ _ E4) as [S4 _].
  destruct S2 as (P2 & K2 & G2 & H2). destruct S3 as (P3 & K3 & G3 & H3).
  destruct S4 as (P4 & K4 & G4 & H4).
  assert (L2 : length jbs' = nbs).
  { rewrite <- (Permutation_length P2), firstn_length. lia. }
  assert (L3 : length jnsu' = length x - nbs).
  { rewrite <- (Permutation_length P3), skipn_length. lia. }
  assert (L4 : length jnsu'' = pos1).
  { rewrite <- (Permutation_length P4), firstn_length. lia. }
  exists (firstn nss jbs'), (skipn nss jbs'), (firstn pos2 jnsu''), (skipn pos2 jnsu''), (skipn pos1 jnsu').
  rewrite !firstn_skipn, !skipn_length, !firstn_length. simpl.
  repeat split; try lia.
  - rewrite (app_assoc (firstn pos2 jnsu'')), firstn_skipn. reflexivity.
  - eapply Permutation_trans; [apply Permutation_sym, P2|].
    eapply Permutation_trans.
    + apply (splits_firstn_filter (indices (length x)) _ _ (fun i => In i jb) (fun i => contains i jb));
        [intros i; apply contains_In|exact S1].
    + apply (sub_perm_filter (length x)); [apply Permutation_refl|assumption|assumption].
  - rewrite app_assoc, firstn_skipn.
    eapply Permutation_trans; [apply Permutation_app_tail, Permutation_sym, P4|].
    rewrite firstn_skipn.
    eapply Permutation_trans; [apply Permutation_sym, P3|].
    apply (splits_skipn_filter _ _ _ (fun i => In i jb) (fun i => contains i jb));
      [intros i; apply contains_In|exact S1].
  - exact G2.
  - intros i Hi. apply H2 in Hi. destruct (is_meta_stable x xlower xupper s i); congruence.
  - apply G4. assumption.
  - apply G3. eapply Permutation_in; [apply Permutation_sym, P4|].
    rewrite <- (firstn_skipn pos2 jnsu''). apply in_or_app; left; assumption.
  - intros i Hi. apply H4 in Hi. destruct (is_lower_unstable x xlower s i); congruence.
  - intros i Hi. apply H3 in Hi. destruct (is_upper_unstable x xupper s i); congruence.
Qed.

Lemma stability_update_correct :
  jb <> [] -> NoDup jb -> (forall i, In i jb -> i < length x) ->
  let t := stability_update part Wx g x w xlower xupper jb in
  let s := stab_s Wx g w in
  st_s t = s /\
  Permutation (status_js t ++ status_jlu t ++ status_juu t) (seq 0 (length x)) /\
  status_ju t = status_jlu t ++ status_juu t /\
  (forall i, In i jb -> In i (status_js t)) /\
  (forall i, In i (status_jlu t) <->
     (i < length x /\ ~ In i jb /\ neqb (nth i x nzero) (nth i xlower nzero) = true /\ nltb nzero (nth i s nzero) = true)) /\
  (forall i, In i (status_juu t) <->
     (i < length x /\ ~ In i jb /\ neqb (nth i x nzero) (nth i xupper nzero) = true /\ nltb (nth i s nzero) nzero = true)) /\
  (forall i, In i (status_jms t) <->
     (In i jb /\ ((neqb (nth i x nzero) (nth i xlower nzero) = true /\ nltb nzero (nth i s nzero) = true) \/
                  (neqb (nth i x nzero) (nth i xupper nzero) = true /\ nltb (nth i s nzero) nzero = true)))).
Proof.
  intros Hne Hnd Hr t s.
  destruct (stability_update_shape t Hne Hnd Hr eq_refl)
    as (jss & jms & jns & jlu & juu & Ej & Ens & Enbs & Enms & Enlu & Enuu & Es & Pb & Pn & Gss & Gms & Gns & Glu & Guu).
  fold s in Gss, Gms, Gns, Glu, Guu, Es.
  assert (Ejs : status_js t = (jss ++ jms) ++ jns).
  { unfold status_js. rewrite Ej, Ens, app_assoc. apply firstn_app_exact. rewrite !app_length; lia. }
  assert (Eju : status_ju t = jlu ++ juu).
  { unfold status_ju. rewrite Ej, Enlu, Enuu, (app_assoc (jss ++ jms)). apply vtail_app.
    rewrite app_length; reflexivity. }
  assert (Ejlu : status_jlu t = jlu).
  { unfold status_jlu. rewrite Eju, Enlu. apply firstn_app_exact; reflexivity. }
  assert (Ejuu : status_juu t = juu).
  { unfold status_juu. rewrite Eju, Enuu. apply vtail_app; reflexivity. }
  assert (Ejms : status_jms t = jms).
  { unfold status_jms. rewrite Ejs, Enbs, Enms, firstn_app_exact by reflexivity. apply vtail_app; reflexivity. }
  assert (Hall : Permutation (jb ++ filter (fun i => negb (contains i jb)) (seq 0 (length x))) (seq 0 (length x))).
  { eapply Permutation_trans; [apply Permutation_app_tail, Permutation_sym, (sub_perm_filter (length x) jb (seq 0 (length x)));
      [apply Permutation_refl|assumption|assumption]|].
    apply Permutation_sym. pose proof (stable_splits (fun i => contains i jb) (seq 0 (length x))) as (A & _). exact A. }
  assert (Inon : forall i, In i (jns ++ jlu ++ juu) <-> i < length x /\ ~ In i jb).
  { intros i. split.
    - intros Hi. apply (Permutation_in _ Pn) in Hi. apply filter_In in Hi. destruct Hi as [Hi Hj].
      apply in_seq in Hi. apply not_contains_iff in Hj. split; [lia|exact Hj].
    - intros [Hi Hj]. apply (Permutation_in _ (Permutation_sym Pn)). apply filter_In. split.
      + apply in_seq; lia.
      + apply not_contains_iff; exact Hj. }
  assert (Lo : forall i, is_lower_unstable x xlower s i = true <->
     (neqb (nth i x nzero) (nth i xlower nzero) = true /\ nltb nzero (nth i s nzero) = true)).
  { intros i. unfold is_lower_unstable, ngtb. apply andb_true_iff. }
  assert (Up : forall i, is_upper_unstable x xupper s i = true <->
     (neqb (nth i x nzero) (nth i xupper nzero) = true /\ nltb (nth i s nzero) nzero = true)).
  { intros i. unfold is_upper_unstable. apply andb_true_iff. }
  split; [exact Es|]. rewrite Ejs, Eju, Ejlu, Ejuu, Ejms.
  split; [|split; [reflexivity|split; [|split; [|split]]]].
  - rewrite <- app_assoc.
    eapply Permutation_trans; [|exact Hall].
    eapply Permutation_trans; [apply Permutation_app_tail, Pb|]. apply Permutation_app_head, Pn.
  - intros i Hi. apply in_or_app; left. apply (Permutation_in _ (Permutation_sym Pb)), Hi.
  - intros i. rewrite <- Lo. split.
    + intros Hi. assert (Hn : In i (jns ++ jlu ++ juu)).
      { apply in_or_app; right; apply in_or_app; left; exact Hi. }
      apply Inon in Hn. split; [tauto|split; [tauto|apply Glu, Hi]].
    + intros (Hi & Hj & Hl). assert (Hn : In i (jns ++ jlu ++ juu)) by (apply Inon; tauto).
      apply in_app_or in Hn. destruct Hn as [Hn|Hn].
      { destruct (Gns i Hn) as [A _]; congruence. }
      apply in_app_or in Hn. destruct Hn as [Hn|Hn]; [exact Hn|].
      exfalso; eapply not_both_unstable; [exact Hl|apply Guu, Hn].
  - intros i. rewrite <- Up. split.
    + intros Hi. assert (Hn : In i (jns ++ jlu ++ juu)).
      { apply in_or_app; right; apply in_or_app; right; exact Hi. }
      apply Inon in Hn. split; [tauto|split; [tauto|apply Guu, Hi]].
    + intros (Hi & Hj & Hl). assert (Hn : In i (jns ++ jlu ++ juu)) by (apply Inon; tauto).
      apply in_app_or in Hn. destruct Hn as [Hn|Hn].
      { destruct (Gns i Hn) as [_ A]; congruence. }
      apply in_app_or in Hn. destruct Hn as [Hn|Hn]; [|exact Hn].
      exfalso; eapply not_both_unstable; [apply Glu, Hn|exact Hl].
  - intros i. rewrite <- Lo, <- Up.
    assert (Me : is_meta_stable x xlower xupper s i = true <->
      (is_lower_unstable x xlower s i = true \/ is_upper_unstable x xupper s i = true)).
    { unfold is_meta_stable. apply orb_true_iff. }
    rewrite <- Me. split.
    + intros Hi. split; [|apply Gms, Hi]. apply (Permutation_in _ Pb), in_or_app; right; exact Hi.
    + intros [Hi Hm]. apply (Permutation_in _ (Permutation_sym Pb)) in Hi.
      apply in_app_or in Hi. destruct Hi as [Hi|Hi]; [|exact Hi].
      rewrite (Gss i Hi) in Hm. discriminate.
Qed.
End StabilityProofs.

Lemma contains_mem i l : contains i l = mem l i.
Proof.
  unfold mem. destruct (in_dec Nat.eq_dec i l) as [H|H].
  - apply contains_In, H.
  - apply contains_false, H.
Qed.

Lemma left_stable_order base p out k :
  p <> [] -> moveIntersectionLeftStable base p = (out, k) ->
  firstn k out = entries_in p base /\ skipn k out = entries_not_in p base.
Proof.
  intros Hp H. destruct (moveIntersectionLeftStable_order _ _ _ _ Hp H) as [A B]. rewrite A, B.
  unfold entries_in, entries_not_in. split; apply filter_ext; intros i; rewrite contains_mem; reflexivity.
Qed.

Lemma right_stable_order base p out k :
  moveIntersectionRightStable base p = (out, k) ->
  firstn k out = entries_not_in p base /\ skipn k out = entries_in p base.
Proof.
  intros H. destruct (moveIntersectionRightStable_order _ _ _ _ H) as [A B]. rewrite A, B.
  unfold entries_in, entries_not_in. split; apply filter_ext; intros i; rewrite contains_mem; reflexivity.
Qed.

Lemma Rsum_ext n f g : (forall k, k < n -> f k = g k) -> Rsum n f = Rsum n g.
Proof.
  induction n as [|n IH]; intros H; simpl; [reflexivity|].
  rewrite IH by (intros; apply H; lia). rewrite H by lia. reflexivity.
Qed.

Lemma Rsum_shift n f : Rsum (S n) f = (f 0%nat + Rsum n (fun k => f (S k)))%R.
Proof. induction n as [|n IH]; [simpl; lra|]. change (Rsum (S (S n)) f) with (Rsum (S n) f + f (S n))%R. rewrite IH. simpl. lra. Qed.

Lemma dotsum_R i W : forall acc (w : list R), length w = length W ->
  dotsum acc (map (fun row => nth i row (IZR 0)) W) w =
  (acc + Rsum (length W) (fun k => nth i (nth k W []) 0 * nth k w 0))%R.
Proof.
  induction W as [|row W IH]; intros acc [|w0 w] H; try discriminate; simpl dotsum.
  - simpl. lra.
  - rewrite IH by (simpl in H; lia). cbn [length]. rewrite Rsum_shift. simpl. lra.
Qed.

Lemma stab_s_exact W (g w : list R) i : length w = length W -> i < length g ->
  nth i (stab_s W g w) 0%R = exact_stability W g w i.
Proof.
  intros H Hi. unfold stab_s.
  set (f := fun i : nat => _). rewrite (nth_indep _ 0%R (f 0)) by (rewrite map_length, seq_length; exact Hi).
  rewrite map_nth, seq_nth by exact Hi. unfold f, exact_stability, nzero. cbn.
  change (@dotsum R Num_R) with (@dotsum R Num_R). rewrite dotsum_R by exact H. lra.
Qed.

(** Empty jb: every variable is declared basic and stable *)
Lemma part_nil part p : partition_contract part -> part p [] = ([], 0).
Proof.
  intros Hc. destruct (part p []) as [o k] eqn:E. destruct (Hc _ _ _ _ E) as (A & B & _).
  apply Permutation_nil in A. subst. simpl in B. f_equal. lia.
Qed.

Lemma stability_empty_jb {T} {N : Num T} part Wx (g x w xl xu : list T) : partition_contract part ->
  let t := stability_update part Wx g x w xl xu [] in
  Permutation (status_js t) (seq 0 (length x)) /\ status_jlu t = [] /\ status_juu t = [].
Proof.
  intros Hc. unfold stability_update.
  change (moveIntersectionLeft part (indices (length x)) []) with (indices (length x), length (indices (length x))).
  set (s := stab_s Wx g w). cbv iota beta.
  assert (L : length (indices (length x)) = length x) by apply seq_length. rewrite L.
  rewrite Nat.sub_diag, Nat.sub_0_r.
  destruct (moveRightIf part (firstn (length x) (indices (length x))) (is_meta_stable x xl xu s)) as [jbs' nss] eqn:E.
  destruct (moveRightIf_splits part Hc _ _ _ _ E) as [(A & _) _].
  rewrite firstn_all2 in A by lia. rewrite skipn_all2 by lia.
  unfold moveRightIf. rewrite part_nil by exact Hc. rewrite firstn_O, part_nil by exact Hc.
  unfold status_js, status_jlu, status_juu, status_ju, vtail. simpl. rewrite !app_nil_r, Nat.add_0_r, Nat.sub_0_r, skipn_all.
  split; [|split; reflexivity].
  rewrite firstn_all2 by (rewrite <- (Permutation_length A); lia). apply Permutation_sym, A.
Qed.

Lemma sp_setStable_nil part s : sp_stable (sp_setStable part s []) = sp_jsu s.
Proof. unfold sp_stable, sp_setStable. simpl. apply firstn_all. Qed.
