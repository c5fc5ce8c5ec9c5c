From Coq Require Import List Arith Bool ZArith Reals Lra Lia.
From Coq Require Import Floats.SpecFloat.
Import ListNotations.
From Verif Require Import Num Index_spec Index_proofs Num_facts Step_model Step_spec.
Local Open Scope R_scope.

Lemma fold_seq_ind {A} (f : A -> nat -> A) (P : nat -> A -> Prop) (n : nat) (a0 : A) :
  P 0%nat a0 -> (forall k a, (k < n)%nat -> P k a -> P (S k) (f a k)) ->
  P n (fold_left f (seq 0 n) a0).
Proof.
  intros H0 HS. assert (H : forall k, (k <= n)%nat -> P k (fold_left f (seq 0 k) a0)).
  { induction k as [|k IH]; intros Hk; [exact H0|].
    rewrite seq_S, fold_left_app. simpl. apply HS; [lia|]. apply IH. lia. }
  apply H. lia.
Qed.

Lemma rltb_true a b : rltb a b = true <-> a < b.
Proof. unfold rltb. destruct (Rlt_dec a b); split; congruence || tauto. Qed.
Lemma rltb_false a b : rltb a b = false <-> b <= a.
Proof. unfold rltb. destruct (Rlt_dec a b); split; try congruence; lra. Qed.
Lemma rleb_true a b : rleb a b = true <-> a <= b.
Proof. unfold rleb. destruct (Rle_dec a b); split; congruence || tauto. Qed.
Lemma rleb_false a b : rleb a b = false <-> b < a.
Proof. unfold rleb. destruct (Rle_dec a b); split; try congruence; lra. Qed.
Lemma reqb_true a b : reqb a b = true <-> a = b.
Proof. unfold reqb. destruct (Req_EM_T a b); split; congruence || tauto. Qed.
Lemma reqb_false a b : reqb a b = false <-> a <> b.
Proof. unfold reqb. destruct (Req_EM_T a b); split; congruence || tauto. Qed.

(** turn boolean tests of a goal or hypothesis into facts *)
Ltac rcase :=
  match goal with
  | |- context [rltb ?a ?b] => let E := fresh "E" in destruct (rltb a b) eqn:E; [apply rltb_true in E|apply rltb_false in E]
  | |- context [rleb ?a ?b] => let E := fresh "E" in destruct (rleb a b) eqn:E; [apply rleb_true in E|apply rleb_false in E]
  | |- context [reqb ?a ?b] => let E := fresh "E" in destruct (reqb a b) eqn:E; [apply reqb_true in E|apply reqb_false in E]
  end.

Definition above (lo : xreal) (y : R) : Prop :=
  match lo with XF l => l <= y | XNInf => True | _ => False end.
Definition below (hi : xreal) (y : R) : Prop :=
  match hi with XF u => y <= u | XPInf => True | _ => False end.

Lemma within_iff lo hi y : within lo hi y <-> above lo y /\ below hi y.
Proof.
  unfold within, above, below.
  destruct lo, hi; simpl; rewrite ?rleb_true; intuition discriminate.
Qed.

Lemma clip_in lo hi y : within lo hi y -> nmin (nmax (XF y) lo) hi = XF y.
Proof.
  rewrite within_iff. unfold above, below, nmin, nmax; simpl. intros [H1 H2].
  destruct lo as [l| | |], hi as [u| | |]; simpl; try tauto; repeat (rcase; simpl); try reflexivity; lra.
Qed.

Lemma clip_low l hi y : y <= l -> below hi l -> nmin (nmax (XF y) (XF l)) hi = XF l.
Proof.
  unfold below, nmin, nmax; simpl. intros H1 H2.
  destruct hi as [u| | |]; simpl; try tauto; repeat (rcase; simpl); try reflexivity; try lra; f_equal; lra.
Qed.

Lemma clip_high lo u y : u <= y -> above lo u -> nmin (nmax (XF y) lo) (XF u) = XF u.
Proof.
  unfold above, nmin, nmax; simpl. intros H1 H2.
  destruct lo as [l| | |]; simpl; try tauto; repeat (rcase; simpl); try reflexivity; try lra; f_equal; lra.
Qed.

Lemma within_scale lo hi p d a b : within lo hi p -> within lo hi (p + b * d) ->
  0 <= a <= b -> within lo hi (p + a * d).
Proof.
  rewrite !within_iff. unfold above, below. intros [H1 H2] [H3 H4] H.
  assert (Ha : exists t, 0 <= t <= 1 /\ a = t * b).
  { destruct (Req_dec b 0) as [->|Hb].
    - exists 0. split; [lra|]. lra.
    - exists (a / b). split; [|field; exact Hb]. split.
      + apply Rmult_le_pos; [lra|]. left; apply Rinv_0_lt_compat; lra.
      + apply (Rmult_le_reg_r b); [lra|]. unfold Rdiv. rewrite Rmult_assoc, Rinv_l by exact Hb. lra. }
  destruct Ha as (t & Ht & ->). split.
  - destruct lo; try tauto.
    assert (0 <= (1 - t) * (p - r) + t * (p + b * d - r)); [|nra].
    apply Rplus_le_le_0_compat; apply Rmult_le_pos; lra.
  - destruct hi; try tauto.
    assert (0 <= (1 - t) * (r - p) + t * (r - (p + b * d))); [|nra].
    apply Rplus_le_le_0_compat; apply Rmult_le_pos; lra.
Qed.

(** ** performConservativeStep, any number type: bounds *)
Lemma conservative_bounds {T} {N : Num T} {NT : NumTot T} n (p dp pl pu : nat -> T) :
  (forall i, (i < n)%nat -> nleb (pl i) (pu i) = true) ->
  forall i, (i < n)%nat -> let p' := fst (performConservativeStep n p dp pl pu) i in
  nnan p' = false -> nleb (pl i) p' = true /\ nleb p' (pu i) = true.
Proof.
  intros H i Hi p'. unfold p', performConservativeStep.
  destruct (conservative_scan n p dp pl pu) as [[alpha j] lu]. simpl.
  apply clip_within. apply H, Hi.
Qed.

Lemma aggressive_bounds {T} {N : Num T} {NT : NumTot T} n (p dp pl pu : nat -> T) :
  (forall i, (i < n)%nat -> nleb (pl i) (pu i) = true) ->
  forall i, (i < n)%nat -> let p' := performAggressiveStep n p dp pl pu i in
  nnan p' = false -> nleb (pl i) p' = true /\ nleb p' (pu i) = true.
Proof. intros H i Hi p'. apply clip_within. apply H, Hi. Qed.

Lemma conservative_bounds_b64 n (p dp pl pu : nat -> spec_float) :
  (forall i, (i < n)%nat -> SFleb (pl i) (pu i) = true) ->
  forall i, (i < n)%nat -> let p' := fst (performConservativeStep n p dp pl pu) i in
  p' <> S754_nan -> SFleb (pl i) p' = true /\ SFleb p' (pu i) = true.
Proof.
  intros H i Hi p' Hn. apply (@conservative_bounds spec_float Num_b64 _ n p dp pl pu H i Hi).
  fold p'. destruct p'; try reflexivity. contradiction.
Qed.

Lemma aggressive_bounds_b64 n (p dp pl pu : nat -> spec_float) :
  (forall i, (i < n)%nat -> SFleb (pl i) (pu i) = true) ->
  forall i, (i < n)%nat -> let p' := performAggressiveStep n p dp pl pu i in
  p' <> S754_nan -> SFleb (pl i) p' = true /\ SFleb p' (pu i) = true.
Proof.
  intros H i Hi p' Hn. apply (@aggressive_bounds spec_float Num_b64 _ n p dp pl pu H i Hi).
  fold p'. destruct p'; try reflexivity. contradiction.
Qed.

(** ** performConservativeStep in exact arithmetic *)
Section Exact.
Variables (n : nat) (p dp : nat -> R) (pl pu : nat -> xreal).
Hypothesis Hf : feasible n p pl pu.
Let P := fun i => XF (p i).
Let D := fun i => XF (dp i).

Definition limits (a : R) (j : nat) : Prop :=
  (j < n)%nat /\ ~ blocked p dp pl pu j /\
  forall b, a < b <= 1 -> ~ within (pl j) (pu j) (p j + b * dp j).

Definition scan_inv (k : nat) (st : xreal * nat * Z) : Prop :=
  let '(alpha, j, lu) := st in
  exists a, alpha = XF a /\ 0 < a <= 1 /\
  (forall i, (i < k)%nat -> ~ blocked p dp pl pu i -> within (pl i) (pu i) (p i + a * dp i)) /\
  ((lu = 0%Z /\ a = 1) \/
   (lu = (-1)%Z /\ a < 1 /\ limits a j /\ pl j = XF (p j + a * dp j)) \/
   (lu = 1%Z /\ a < 1 /\ limits a j /\ pu j = XF (p j + a * dp j))).

Lemma scan_inv_holds : scan_inv n (conservative_scan n P D pl pu).
Proof.
  unfold conservative_scan. apply fold_seq_ind.
  - exists 1. split; [reflexivity|]. split; [lra|]. split; [intros i Hi; lia|]. left; split; reflexivity.
  - intros k [[alpha j] lu] Hk (a & -> & Ha & Hin & Hcase).
    pose proof (Hf k Hk) as Hw. pose proof Hw as Hw'. rewrite within_iff in Hw'. destruct Hw' as [Hlo Hhi].
    assert (Same : (~ blocked p dp pl pu k -> within (pl k) (pu k) (p k + a * dp k)) ->
                   scan_inv (S k) (XF a, j, lu)).
    { intros Hk'. exists a. split; [reflexivity|]. split; [exact Ha|]. split; [|exact Hcase].
      intros i Hi Hb. destruct (Nat.eq_dec i k) as [->|]; [apply Hk', Hb|apply Hin; [lia|exact Hb]]. }
    assert (Full : within (pl k) (pu k) (p k + dp k) -> scan_inv (S k) (XF a, j, lu)).
    { intros H. apply Same. intros _. apply (within_scale _ _ _ _ a 1); [exact Hw| |lra].
      rewrite Rmult_1_l. exact H. }
    unfold conservative_iter, P, D. cbn [neqb nltb Num_xreal nadd nsub nopp ngtb nofZ nzero].
    unfold ngtb, nzero. cbn [neqb nltb Num_xreal nadd nsub nopp nofZ nfinite ndiv xadd].
    destruct (xeqb (XF (p k)) (pl k) && xltb (XF (dp k)) (XF 0)) eqn:E1.
    { apply Same. intros Hb. exfalso; apply Hb. left. apply andb_true_iff in E1. destruct E1 as [A B].
      destruct (pl k) as [l| | |]; simpl in A, B; try discriminate. apply reqb_true in A. apply rltb_true in B.
      subst; split; [reflexivity|exact B]. }
    destruct (xeqb (XF (p k)) (pu k) && xltb (XF 0) (XF (dp k))) eqn:E2.
    { apply Same. intros Hb. exfalso; apply Hb. right. apply andb_true_iff in E2. destruct E2 as [A B].
      destruct (pu k) as [u| | |]; simpl in A, B; try discriminate. apply reqb_true in A. apply rltb_true in B.
      subst; split; [reflexivity|exact B]. }
    destruct (match pl k with XF _ => true | _ => false end && xltb (XF (p k + dp k)) (pl k)) eqn:E3.
    { (* lower bound violated *)
      destruct (pl k) as [l| | |] eqn:El; try discriminate. simpl in E1, E3, Hlo. apply rltb_true in E3.
      assert (Hd : dp k < 0) by lra.
      assert (Hpl : l < p k).
      { destruct (Rtotal_order l (p k)) as [H|[H|H]]; [exact H| |lra]. exfalso.
        apply andb_false_iff in E1. destruct E1 as [E1|E1].
        - apply reqb_false in E1. apply E1. symmetry; exact H.
        - apply rltb_false in E1. lra. }
      assert (Hnb : ~ blocked p dp pl pu k).
      { intros [[H _]|[_ H]]; [|lra]. rewrite El in H. injection H as H. lra. }
      unfold xsub, xopp, xadd, xdiv. destruct (reqb (dp k) 0) eqn:E0; [apply reqb_true in E0; lra|].
      set (ai := (l + - p k) / dp k).
      assert (Hai : ai * dp k = l - p k) by (unfold ai; field; lra).
      assert (Hai0 : 0 < ai) by nra.
      assert (Hai1 : ai < 1) by nra.
      cbn [xltb]. destruct (rltb ai a) eqn:E4; [apply rltb_true in E4|apply rltb_false in E4].
      - unfold nmin, none1. cbn. destruct (rltb 1 ai) eqn:E5; [apply rltb_true in E5; lra|].
        exists ai. split; [reflexivity|]. split; [lra|]. split.
        + intros i Hi Hb. destruct (Nat.eq_dec i k) as [->|Hne].
          * rewrite Hai. apply within_iff. rewrite El. simpl. split; [lra|].
            unfold below in *. destruct (pu k); try tauto. lra.
          * apply (within_scale _ _ _ _ ai a); [apply Hf; lia|apply Hin; [lia|exact Hb]|lra].
        + right; left. split; [reflexivity|]. split; [lra|]. split; [|rewrite El; f_equal; lra].
          split; [exact Hk|]. split; [exact Hnb|]. intros b Hb. rewrite within_iff, El. simpl. intros [H _]. nra.
      - apply Same. intros _. rewrite ?El. apply (within_scale _ _ _ _ a ai); [exact Hw| |lra].
        rewrite Hai. apply within_iff. simpl. split; [lra|].
        unfold below in *. destruct (pu k); try tauto. lra. }
    destruct (match pu k with XF _ => true | _ => false end && xltb (pu k) (XF (p k + dp k))) eqn:E6.
    { destruct (pu k) as [u| | |] eqn:Eu; try discriminate. simpl in E2, E6, Hhi. apply rltb_true in E6.
      assert (Hd : 0 < dp k) by lra.
      assert (Hpl : p k < u).
      { destruct (Rtotal_order u (p k)) as [H|[H|H]]; [lra| |exact H]. exfalso.
        apply andb_false_iff in E2. destruct E2 as [E2|E2].
        - apply reqb_false in E2. apply E2. symmetry; exact H.
        - apply rltb_false in E2. lra. }
      assert (Hnb : ~ blocked p dp pl pu k).
      { intros [[_ H]|[H _]]; [lra|]. rewrite Eu in H. injection H as H. lra. }
      unfold xsub, xopp, xadd, xdiv. destruct (reqb (dp k) 0) eqn:E0; [apply reqb_true in E0; lra|].
      set (ai := (u + - p k) / dp k).
      assert (Hai : ai * dp k = u - p k) by (unfold ai; field; lra).
      assert (Hai0 : 0 < ai) by nra.
      assert (Hai1 : ai < 1) by nra.
      cbn [xltb]. destruct (rltb ai a) eqn:E4; [apply rltb_true in E4|apply rltb_false in E4].
      - unfold nmin, none1. cbn. destruct (rltb 1 ai) eqn:E5; [apply rltb_true in E5; lra|].
        exists ai. split; [reflexivity|]. split; [lra|]. split.
        + intros i Hi Hb. destruct (Nat.eq_dec i k) as [->|Hne].
          * rewrite Hai. apply within_iff. rewrite Eu. simpl. split; [|lra].
            unfold above in *. destruct (pl k); try tauto. lra.
          * apply (within_scale _ _ _ _ ai a); [apply Hf; lia|apply Hin; [lia|exact Hb]|lra].
        + right; right. split; [reflexivity|]. split; [lra|]. split; [|rewrite Eu; f_equal; lra].
          split; [exact Hk|]. split; [exact Hnb|]. intros b Hb. rewrite within_iff, Eu. simpl. intros [_ H]. nra.
      - apply Same. intros _. rewrite ?Eu. apply (within_scale _ _ _ _ a ai); [exact Hw| |lra].
        rewrite Hai. apply within_iff. simpl. split; [|lra].
        unfold above in *. destruct (pl k); try tauto. lra. }
    apply Full. apply within_iff. unfold above, below in *. split.
    + destruct (pl k) as [l| | |]; try tauto. simpl in E3. apply rltb_false in E3. lra.
    + destruct (pu k) as [u| | |]; try tauto. simpl in E6. apply rltb_false in E6. lra.
Qed.

Lemma blocked_clip i (a : R) : (i < n)%nat -> 0 <= a -> blocked p dp pl pu i ->
  nmin (nmax (XF (p i + a * dp i)) (pl i)) (pu i) = XF (p i).
Proof.
  intros Hi Ha Hb. pose proof (Hf i Hi) as Hw. rewrite within_iff in Hw. destruct Hw as [Hlo Hhi].
  destruct Hb as [[H1 H2]|[H1 H2]].
  - rewrite <- H1. apply clip_low; [nra|exact Hhi].
  - rewrite <- H1. apply clip_high; [nra|exact Hlo].
Qed.

Lemma conservative_exact :
  let '(p', alpha) := performConservativeStep n P D pl pu in
  exists a, alpha = XF a /\ 0 < a <= 1 /\
  (forall i, (i < n)%nat -> blocked p dp pl pu i -> p' i = XF (p i)) /\
  (forall i, (i < n)%nat -> ~ blocked p dp pl pu i ->
     p' i = XF (p i + a * dp i) /\ within (pl i) (pu i) (p i + a * dp i)) /\
  (a < 1 -> exists i, (i < n)%nat /\ ~ blocked p dp pl pu i /\ (p' i = pl i \/ p' i = pu i) /\
     forall b, a < b <= 1 -> ~ within (pl i) (pu i) (p i + b * dp i)).
Proof.
  unfold performConservativeStep. pose proof scan_inv_holds as H.
  destruct (conservative_scan n P D pl pu) as [[alpha j] lu].
  destruct H as (a & -> & Ha & Hin & Hcase). exists a. split; [reflexivity|]. split; [exact Ha|].
  destruct Hcase as [[-> ->]|Hcase].
  - cbn [negb Z.eqb]. split; [|split].
    + intros i Hi Hb. unfold P, D. cbn [nadd Num_xreal xadd].
      replace (p i + dp i) with (p i + 1 * dp i) by ring. apply blocked_clip; [exact Hi|lra|exact Hb].
    + intros i Hi Hb. specialize (Hin i Hi Hb). split; [|exact Hin].
      unfold P, D. cbn [nadd Num_xreal xadd]. rewrite clip_in; [f_equal; ring|].
      replace (p i + dp i) with (p i + 1 * dp i) by ring. exact Hin.
    + intros H; lra.
  - assert (Hj : limits a j /\ negb (Z.eqb lu 0) = true /\
       (if Z.eqb lu (-1) then pl j else pu j) = XF (p j + a * dp j) /\
       (pl j = XF (p j + a * dp j) \/ pu j = XF (p j + a * dp j))).
    { destruct Hcase as [(-> & _ & Hl & Hj)|(-> & _ & Hl & Hj)]; repeat split; try apply Hl; try exact Hj;
        [left|right]; exact Hj. }
    destruct Hj as (Hl & Elu & Ej & Hor). rewrite Elu. clear Hcase.
    assert (Hnb : forall i, (i < n)%nat -> ~ blocked p dp pl pu i ->
       nmin (nmax ((if Nat.eqb i j then if Z.eqb lu (-1) then pl j else pu j
         else nadd (P i) (nmul (XF a) (D i)))) (pl i)) (pu i) = XF (p i + a * dp i)).
    { intros i Hi Hb. replace (if Nat.eqb i j then _ else _) with (XF (p i + a * dp i)).
      - apply clip_in, Hin; assumption.
      - destruct (Nat.eqb_spec i j) as [->|]; [symmetry; exact Ej|reflexivity]. }
    split; [|split].
    + intros i Hi Hb. destruct (Nat.eqb_spec i j) as [->|Hne]; [exfalso; apply Hl, Hb|].
      unfold P, D. cbn [nadd nmul Num_xreal xadd xmul]. apply blocked_clip; [exact Hi|lra|exact Hb].
    + intros i Hi Hb. split; [apply Hnb; assumption|apply Hin; assumption].
    + intros _. exists j. destruct Hl as (Hj & Hbj & Hmax). split; [exact Hj|]. split; [exact Hbj|].
      split; [|exact Hmax]. rewrite (Hnb j Hj Hbj). destruct Hor as [Ho|Ho]; [left|right]; symmetry; exact Ho.
Qed.
End Exact.

(** ** performAggressiveStep: projection *)
Lemma aggressive_projection n (p dp : nat -> R) (pl pu : nat -> xreal) :
  (forall i, (i < n)%nat -> exists y, within (pl i) (pu i) y) ->
  forall i, (i < n)%nat -> exists z,
    performAggressiveStep n (fun i => XF (p i)) (fun i => XF (dp i)) pl pu i = XF z /\
    within (pl i) (pu i) z /\
    forall y, within (pl i) (pu i) y -> Rabs (z - (p i + dp i)) <= Rabs (y - (p i + dp i)).
Proof.
  intros H i Hi. destruct (H i Hi) as [y0 Hy0]. rewrite within_iff in Hy0. destruct Hy0 as [Hl0 Hu0].
  unfold performAggressiveStep. cbn [nadd Num_xreal xadd]. set (c := p i + dp i).
  destruct (xltb (XF c) (pl i)) eqn:E1.
  - destruct (pl i) as [l| | |] eqn:El; simpl in E1, Hl0; try discriminate; try tauto.
    apply rltb_true in E1. exists l. split; [|split].
    + apply clip_low; [lra|]. unfold below in *. destruct (pu i); try tauto. lra.
    + apply within_iff. simpl. split; [lra|]. unfold below in *. destruct (pu i); try tauto. lra.
    + intros y Hy. apply within_iff in Hy. simpl in Hy. destruct Hy as [Hy _].
      rewrite !Rabs_right by lra. lra.
  - destruct (xltb (pu i) (XF c)) eqn:E2.
    + destruct (pu i) as [u| | |] eqn:Eu; simpl in E2, Hu0; try discriminate; try tauto.
      apply rltb_true in E2. exists u. split; [|split].
      * apply clip_high; [lra|]. unfold above in *. destruct (pl i); try tauto. lra.
      * apply within_iff. simpl. split; [|lra]. unfold above in *. destruct (pl i); try tauto. lra.
      * intros y Hy. apply within_iff in Hy. simpl in Hy. destruct Hy as [_ Hy].
        rewrite !Rabs_left1 by lra. lra.
    + assert (Hw : within (pl i) (pu i) c).
      { apply within_iff. unfold above, below in *. destruct (pl i), (pu i); simpl in *; try tauto;
          rewrite ?rltb_false in *; split; try exact I; lra. }
      exists c. split; [apply clip_in, Hw|]. split; [exact Hw|]. intros y _.
      unfold Rminus at 1. rewrite Rplus_opp_r, Rabs_R0. apply Rabs_pos.
Qed.

(** ** largestStep with bounds, stepUpToBounds *)
Section Largest.
Variables (n : nat) (p dp : nat -> R) (pl pu : nat -> xreal).
Hypothesis Hf : feasible n p pl pu.
Let P := fun i => XF (p i).
Let D := fun i => XF (dp i).

Definition violates (i : nat) : Prop := ~ within (pl i) (pu i) (p i + dp i).

Definition largest_inv (k : nat) (alpha : xreal) : Prop :=
  (alpha = XPInf /\ forall i, (i < k)%nat -> ~ violates i) \/
  (exists a, alpha = XF a /\ 0 <= a < 1 /\
     (forall i, (i < k)%nat -> within (pl i) (pu i) (p i + a * dp i)) /\
     exists j, (j < k)%nat /\ violates j /\
       ((pl j = XF (p j + a * dp j) /\ dp j < 0) \/ (pu j = XF (p j + a * dp j) /\ 0 < dp j))).

Lemma not_violates_within i : ~ violates i -> within (pl i) (pu i) (p i + dp i).
Proof.
  unfold violates, within. intros H.
  destruct (xleb (pl i) (XF (p i + dp i))), (xleb (XF (p i + dp i)) (pu i)); split; try reflexivity; exfalso; apply H; intros [A B]; discriminate.
Qed.

(** One iteration that meets a violated bound with factor ai. *)
Lemma largest_step_violated k alpha ai : (k < n)%nat -> largest_inv k alpha -> violates k ->
  0 <= ai < 1 -> within (pl k) (pu k) (p k + ai * dp k) ->
  ((pl k = XF (p k + ai * dp k) /\ dp k < 0) \/ (pu k = XF (p k + ai * dp k) /\ 0 < dp k)) ->
  largest_inv (S k) (nmin alpha (XF ai)).
Proof.
  intros Hk Hinv Hv Hai Hw Hb. right. destruct Hinv as [[-> Hno]|(a & -> & Ha & Hin & j & Hj & Hvj & Hbj)].
  - exists ai. split; [reflexivity|]. split; [exact Hai|]. split.
    + intros i Hi. destruct (Nat.eq_dec i k) as [->|]; [exact Hw|].
      apply (within_scale _ _ _ _ ai 1); [apply Hf; lia| |lra].
      rewrite Rmult_1_l. apply not_violates_within, Hno. lia.
    + exists k. repeat split; try assumption; lia.
  - unfold nmin. simpl. destruct (rltb ai a) eqn:E; [apply rltb_true in E|apply rltb_false in E].
    + exists ai. split; [reflexivity|]. split; [exact Hai|]. split.
      * intros i Hi. destruct (Nat.eq_dec i k) as [->|]; [exact Hw|].
        apply (within_scale _ _ _ _ ai a); [apply Hf; lia|apply Hin; lia|lra].
      * exists k. repeat split; try assumption; lia.
    + exists a. split; [reflexivity|]. split; [exact Ha|]. split.
      * intros i Hi. destruct (Nat.eq_dec i k) as [->|]; [|apply Hin; lia].
        apply (within_scale _ _ _ _ a ai); [apply Hf; lia|exact Hw|lra].
      * exists j. repeat split; try assumption; lia.
Qed.

Lemma largest_step_ok k alpha : (k < n)%nat -> largest_inv k alpha -> ~ violates k -> largest_inv (S k) alpha.
Proof.
  intros Hk Hinv Hv. destruct Hinv as [[-> Hno]|(a & -> & Ha & Hin & j & Hj & Hvj & Hbj)].
  - left. split; [reflexivity|]. intros i Hi. destruct (Nat.eq_dec i k) as [->|]; [exact Hv|apply Hno; lia].
  - right. exists a. split; [reflexivity|]. split; [exact Ha|]. split.
    + intros i Hi. destruct (Nat.eq_dec i k) as [->|]; [|apply Hin; lia].
      apply (within_scale _ _ _ _ a 1); [apply Hf; exact Hk| |lra]. rewrite Rmult_1_l. apply not_violates_within, Hv.
    + exists j. repeat split; try assumption; lia.
Qed.

Lemma stepUp_iter_eq alpha k : (k < n)%nat -> stepUpToBounds_iter P D pl pu alpha k = largestStep_iter P D pl pu alpha k.
Proof.
  intros Hk. unfold stepUpToBounds_iter, largestStep_iter. pose proof (Hf k Hk) as Hw.
  rewrite within_iff in Hw. destruct Hw as [_ Hhi].
  destruct (nfinite (pl k) && _); [reflexivity|].
  destruct (nfinite (pu k) && ngtb (nadd (P k) (D k)) (pu k)) eqn:E; [reflexivity|].
  destruct (pu k) as [u| | |]; simpl in Hhi; try tauto; simpl in E.
  unfold ngtb in *. simpl in *. rewrite E. reflexivity.
Qed.

Lemma largest_iter_inv k alpha : (k < n)%nat -> largest_inv k alpha ->
  largest_inv (S k) (largestStep_iter P D pl pu alpha k).
Proof.
  intros Hk Hinv. pose proof (Hf k Hk) as Hw. rewrite within_iff in Hw. destruct Hw as [Hlo Hhi].
  unfold largestStep_iter, P, D, ngtb. cbn [nltb Num_xreal nadd nsub nfinite ndiv xadd].
  destruct (match pl k with XF _ => true | _ => false end && xltb (XF (p k + dp k)) (pl k)) eqn:E3.
  { destruct (pl k) as [l| | |] eqn:El; try discriminate. simpl in E3, Hlo. apply rltb_true in E3.
    unfold xsub, xopp, xadd, xdiv. destruct (reqb (dp k) 0) eqn:E0; [apply reqb_true in E0; lra|].
    assert (Hai : (l + - p k) / dp k * dp k = l - p k) by (field; lra).
    apply largest_step_violated; try assumption.
    - unfold violates. rewrite within_iff, El. simpl. lra.
    - split; nra.
    - rewrite Hai, El. apply within_iff. simpl. split; [lra|]. unfold below in *. destruct (pu k); try tauto. lra.
    - left. rewrite El. split; [f_equal; lra|lra]. }
  destruct (match pu k with XF _ => true | _ => false end && xltb (pu k) (XF (p k + dp k))) eqn:E6.
  { destruct (pu k) as [u| | |] eqn:Eu; try discriminate. simpl in E6, Hhi. apply rltb_true in E6.
    unfold xsub, xopp, xadd, xdiv. destruct (reqb (dp k) 0) eqn:E0; [apply reqb_true in E0; lra|].
    assert (Hai : (u + - p k) / dp k * dp k = u - p k) by (field; lra).
    apply largest_step_violated; try assumption.
    - unfold violates. rewrite within_iff, Eu. simpl. lra.
    - split; nra.
    - rewrite Hai, Eu. apply within_iff. simpl. split; [|lra]. unfold above in *. destruct (pl k); try tauto. lra.
    - right. rewrite Eu. split; [f_equal; lra|lra]. }
  apply largest_step_ok; try assumption. intros Hv. apply Hv. apply within_iff. unfold above, below in *. split.
  + destruct (pl k) as [l| | |]; try tauto. simpl in E3. apply rltb_false in E3. lra.
  + destruct (pu k) as [u| | |]; try tauto. simpl in E6. apply rltb_false in E6. lra.
Qed.

Lemma largestStep_inv : largest_inv n (largestStep n P D pl pu).
Proof.
  unfold largestStep. apply fold_seq_ind.
  - left. split; [reflexivity|]. intros i Hi; lia.
  - intros k a Hk Ha. apply largest_iter_inv; assumption.
Qed.

Lemma stepUpToBounds_eq : stepUpToBounds n P D pl pu = largestStep n P D pl pu.
Proof.
  unfold stepUpToBounds, largestStep.
  assert (H : forall l a, (forall k, In k l -> (k < n)%nat) ->
    fold_left (stepUpToBounds_iter P D pl pu) l a = fold_left (largestStep_iter P D pl pu) l a).
  { induction l as [|k l IH]; intros a H; [reflexivity|]. simpl.
    rewrite stepUp_iter_eq by (apply H; left; reflexivity). apply IH. intros i Hi; apply H; right; exact Hi. }
  apply H. intros k Hk. apply in_seq in Hk. lia.
Qed.

Lemma largestStep_exact :
  let alpha := largestStep n P D pl pu in
  (alpha = XPInf <-> (forall i, (i < n)%nat -> within (pl i) (pu i) (p i + dp i))) /\
  (alpha = XPInf \/ exists a, alpha = XF a /\ 0 <= a < 1 /\
     (forall i, (i < n)%nat -> within (pl i) (pu i) (p i + a * dp i)) /\
     (exists j, (j < n)%nat /\ (pl j = XF (p j + a * dp j) \/ pu j = XF (p j + a * dp j)) /\
        forall b, a < b -> ~ within (pl j) (pu j) (p j + b * dp j))).
Proof.
  intros alpha. destruct largestStep_inv as [[E Hno]|(a & E & Ha & Hin & j & Hj & Hvj & Hbj)]; fold alpha in E.
  - split; [|left; exact E]. split; [|intros _; exact E].
    intros _ i Hi. apply not_violates_within, Hno, Hi.
  - split.
    + split; [rewrite E; discriminate|]. intros H. exfalso. apply Hvj, H, Hj.
    + right. exists a. split; [exact E|]. split; [exact Ha|]. split; [exact Hin|]. exists j. split; [exact Hj|].
      split; [destruct Hbj as [[Hbj _]|[Hbj _]]; [left|right]; exact Hbj|].
      intros b Hb. rewrite within_iff. destruct Hbj as [[Hbj Hd]|[Hbj Hd]]; rewrite Hbj; simpl; nra.
Qed.
End Largest.

Lemma xdiv_XF a b : b <> 0 -> xdiv (XF a) (XF b) = XF (a / b).
Proof. intros H. simpl. destruct (reqb b 0) eqn:E; [apply reqb_true in E; contradiction|reflexivity]. Qed.

(** ** largestStep towards the lower bound zero *)
Lemma largestStep2_exact n (p dp : nat -> R) :
  (forall i, (i < n)%nat -> 0 < p i) ->
  let alpha := largestStep2 n (fun i => XF (p i)) (fun i => XF (dp i)) in
  (alpha = XPInf /\ forall i, (i < n)%nat -> 0 <= dp i) \/
  (exists a, alpha = XF a /\ 0 < a /\
     is_maximum (fun b => forall i, (i < n)%nat -> 0 <= p i + b * dp i) a /\
     exists j, (j < n)%nat /\ p j + a * dp j = 0).
Proof.
  intros Hp. cbv zeta. unfold largestStep2.
  assert (H : forall k, (k <= n)%nat ->
    let alpha := fold_left (largestStep2_iter (fun i => XF (p i)) (fun i => XF (dp i))) (seq 0 k) XPInf in
    (alpha = XPInf /\ forall i, (i < k)%nat -> 0 <= dp i) \/
    (exists a, alpha = XF a /\ 0 < a /\ (forall i, (i < k)%nat -> 0 <= p i + a * dp i) /\
       exists j, (j < k)%nat /\ dp j < 0 /\ p j + a * dp j = 0)).
  { induction k as [|k IH]; intros Hk; [left; split; [reflexivity|intros; lia]|].
    cbv zeta. rewrite seq_S, fold_left_app. cbn [fold_left plus].
    specialize (IH (Nat.le_trans _ _ _ (Nat.le_succ_diag_r k) Hk)). cbv zeta in IH.
    assert (Hpk : 0 < p k) by (apply Hp; lia).
    destruct (Rlt_dec (dp k) 0) as [Hd|Hd].
    - assert (Hr : - p k / dp k * dp k = - p k) by (field; lra).
      assert (Hr0 : 0 < - p k / dp k) by nra.
      destruct IH as [[-> Hall]|(a & -> & Ha & Hin & j & Hj & Hdj & Hj0)].
      + right. exists (- p k / dp k). split; [|split; [exact Hr0|split]].
        * unfold largestStep2_iter, ngtb, nzero. cbn [ndiv nopp nltb nofZ Num_xreal xopp].
          rewrite xdiv_XF by lra. cbn. rcase; [reflexivity|lra].
        * intros i Hi. destruct (Nat.eq_dec i k) as [->|]; [lra|].
          assert (0 <= dp i) by (apply Hall; lia). assert (0 < p i) by (apply Hp; lia). nra.
        * exists k. split; [lia|split; [exact Hd|lra]].
      + unfold largestStep2_iter, ngtb, nzero. cbn [ndiv nopp nltb nofZ Num_xreal xopp].
        rewrite xdiv_XF by lra. cbn. rcase; [|lra]. rcase.
        * right. exists (- p k / dp k). split; [reflexivity|]. split; [lra|]. split.
          -- intros i Hi. destruct (Nat.eq_dec i k) as [->|]; [lra|].
             assert (0 <= p i + a * dp i) by (apply Hin; lia). assert (0 < p i) by (apply Hp; lia).
             destruct (Rle_dec 0 (dp i)); nra.
          -- exists k. split; [lia|split; [exact Hd|lra]].
        * right. exists a. split; [reflexivity|]. split; [exact Ha|]. split.
          -- intros i Hi. destruct (Nat.eq_dec i k) as [->|]; [nra|apply Hin; lia].
          -- exists j. split; [lia|split; [exact Hdj|exact Hj0]].
    - assert (Hskip : forall A, largestStep2_iter (fun i => XF (p i)) (fun i => XF (dp i)) A k = A).
      { intros A. unfold largestStep2_iter, ngtb, nzero. cbn [ndiv nopp nltb nofZ Num_xreal xopp].
        destruct (Req_dec (dp k) 0) as [H0|H0].
        - rewrite H0. unfold xdiv. replace (reqb 0 0) with true by (symmetry; apply reqb_true; reflexivity).
          replace (reqb (- p k) 0) with false by (symmetry; apply reqb_false; lra).
          replace (rltb 0 (- p k)) with false by (symmetry; apply rltb_false; lra). reflexivity.
        - rewrite xdiv_XF by exact H0. cbn. rcase; [|reflexivity].
          assert (- p k / dp k * dp k = - p k) by (field; lra). exfalso. nra. }
      rewrite Hskip. destruct IH as [[-> Hall]|(a & -> & Ha & Hin & j & Hj & Hdj & Hj0)].
      + left. split; [reflexivity|]. intros i Hi. destruct (Nat.eq_dec i k) as [->|]; [lra|apply Hall; lia].
      + right. exists a. split; [reflexivity|]. split; [exact Ha|]. split.
        * intros i Hi. destruct (Nat.eq_dec i k) as [->|]; [nra|apply Hin; lia].
        * exists j. split; [lia|split; [exact Hdj|exact Hj0]]. }
  destruct (H n (Nat.le_refl n)) as [[E Hall]|(a & E & Ha & Hin & j & Hj & Hdj & Hj0)].
  - left. split; [exact E|exact Hall].
  - right. exists a. split; [exact E|]. split; [exact Ha|]. split.
    + split; [exact Hin|]. intros b Hb. specialize (Hb j Hj). simpl in Hb. nra.
    + exists j. split; [exact Hj|exact Hj0].
Qed.

(** ** fraction to the boundary, in exact arithmetic.  All three versions are the
    minimum of 1 and of -tau*m_i/d_i over the indices with d_i < 0. *)
Lemma fraction_generic n (m d : nat -> R) (tau : R) : 0 < tau ->
  (forall i, (i < n)%nat -> 0 < m i) -> forall (S0 : R -> Prop),
  (forall a, S0 a <-> 0 < a <= 1 /\ forall i, (i < n)%nat -> (1 - tau) * m i <= m i + a * d i) ->
  let r := fold_left (fun (st : R * nat) i => if rltb (d i) 0 then
      (if rltb (- tau * m i / d i) (fst st) then (- tau * m i / d i, i) else st) else st) (seq 0 n) (1, n) in
  is_maximum S0 (fst r) /\
  ((snd r = n /\ fst r = 1) \/ ((snd r < n)%nat /\ fst r < 1 /\ m (snd r) + fst r * d (snd r) = (1 - tau) * m (snd r))).
Proof.
  intros Ht Hm S0 HS r.
  assert (H : 0 < fst r <= 1 /\ (forall i, (i < n)%nat -> (1 - tau) * m i <= m i + fst r * d i) /\
    ((snd r = n /\ fst r = 1) \/ ((snd r < n)%nat /\ fst r < 1 /\ d (snd r) < 0 /\
       m (snd r) + fst r * d (snd r) = (1 - tau) * m (snd r)))).
  { unfold r. apply (fold_seq_ind _ (fun k (st : R * nat) => 0 < fst st <= 1 /\
     (forall i, (i < k)%nat -> (1 - tau) * m i <= m i + fst st * d i) /\
     ((snd st = n /\ fst st = 1) \/ ((snd st < n)%nat /\ fst st < 1 /\ d (snd st) < 0 /\
       m (snd st) + fst st * d (snd st) = (1 - tau) * m (snd st))))).
    - simpl. split; [lra|]. split; [intros; lia|]. left; split; reflexivity.
    - intros k [a j] Hk (Ha & Hin & Hc). simpl in *. specialize (Hm k Hk) as Hmk.
      rcase; [rcase|]; simpl.
      + assert (Hr : - tau * m k / d k * d k = - tau * m k) by (field; lra).
        set (q := - tau * m k / d k) in *. assert (Hq : 0 < q) by nra.
        split; [lra|]. split.
        * intros i Hi. destruct (Nat.eq_dec i k) as [->|]; [lra|].
          specialize (Hin i ltac:(lia)). specialize (Hm i ltac:(lia)).
          destruct (Rle_dec 0 (d i)); nra.
        * right. split; [exact Hk|]. split; [lra|]. split; [exact E|lra].
      + assert (Hr : - tau * m k / d k * d k = - tau * m k) by (field; lra).
        set (q := - tau * m k / d k) in *.
        split; [exact Ha|]. split; [|exact Hc].
        intros i Hi. destruct (Nat.eq_dec i k) as [->|]; [nra|apply Hin; lia].
      + split; [exact Ha|]. split; [|exact Hc].
        intros i Hi. destruct (Nat.eq_dec i k) as [->|]; [nra|apply Hin; lia]. }
  destruct H as (Ha & Hin & Hc). split.
  - split; [apply HS; split; assumption|]. intros b Hb. apply HS in Hb. destruct Hb as [Hb1 Hb2].
    destruct Hc as [[_ ->]|(Hs & Hlt & Hd & Heq)]; [lra|]. specialize (Hb2 _ Hs). nra.
  - destruct Hc as [Hc|(Hs & Hlt & Hd & Heq)]; [left; exact Hc|right]. repeat split; assumption.
Qed.

Lemma fold_left_ext_in {A} (f g : A -> nat -> A) l : (forall a i, In i l -> f a i = g a i) ->
  forall a, fold_left f l a = fold_left g l a.
Proof.
  induction l as [|x l IH]; intros H a; [reflexivity|]. simpl. rewrite H by (left; reflexivity).
  apply IH. intros; apply H; right; assumption.
Qed.

Lemma fraction_exact n (p dp : nat -> R) (tau : R) :
  0 < tau < 1 -> (forall i, (i < n)%nat -> 0 < p i) ->
  let '(a, ilim) := fractionToTheBoundary n p dp tau in
  is_maximum (fun a => 0 < a <= 1 /\ forall i, (i < n)%nat -> (1 - tau) * p i <= p i + a * dp i) a /\
  ((ilim = n /\ a = 1) \/ ((ilim < n)%nat /\ a < 1 /\ p ilim + a * dp ilim = (1 - tau) * p ilim)).
Proof.
  intros Ht Hp. destruct (fractionToTheBoundary n p dp tau) as [a ilim] eqn:E.
  assert (E' : fold_left (fun (st : R * nat) i => if rltb (dp i) 0 then
      (if rltb (- tau * p i / dp i) (fst st) then (- tau * p i / dp i, i) else st) else st) (seq 0 n) (1, n) = (a, ilim)).
  { rewrite <- E. reflexivity. }
  pose proof (fraction_generic n p dp tau (proj1 Ht) Hp _ (fun a => iff_refl _)) as H. cbv zeta in H.
  rewrite E' in H. exact H.
Qed.

(** the versions that return only alpha *)
Lemma fst_fold (q : nat -> R) (b : nat -> bool) l : forall st : R * nat,
  fst (fold_left (fun (st : R * nat) i => if b i then (if rltb (q i) (fst st) then (q i, i) else st) else st) l st) =
  fold_left (fun a i => if b i then (if rltb (q i) a then q i else a) else a) l (fst st).
Proof.
  induction l as [|x l IH]; intros st; [reflexivity|]. simpl. rewrite IH. f_equal.
  destruct (b x); [|reflexivity]. destruct (rltb (q x) (fst st)); reflexivity.
Qed.

Lemma ndot_Rsum n (a b : nat -> R) : ndot n a b = Rsum n (fun k => a k * b k).
Proof.
  unfold ndot. apply (fold_seq_ind _ (fun k s => s = Rsum k (fun k => a k * b k))); [reflexivity|].
  intros k s _ ->. reflexivity.
Qed.

Lemma Rsum_plus n f g : Rsum n (fun k => f k + g k) = Rsum n f + Rsum n g.
Proof. induction n as [|n IH]; simpl; [lra|]. rewrite IH. lra. Qed.
Lemma Rsum_scal n c f : Rsum n (fun k => c * f k) = c * Rsum n f.
Proof. induction n as [|n IH]; simpl; [lra|]. rewrite IH. lra. Qed.

Lemma fractionC_exact m n (p dp : nat -> R) (C : nat -> nat -> R) (r : nat -> R) (tau : R) :
  let row i y := Rsum n (fun k => C i k * y k) in
  0 < tau < 1 -> (forall i, (i < m)%nat -> r i < row i p) ->
  is_maximum (fun a => 0 < a <= 1 /\ forall i, (i < m)%nat ->
      (1 - tau) * (row i p - r i) <= row i (fun k => p k + a * dp k) - r i)
    (fractionToTheBoundaryC m n p dp C r tau).
Proof.
  intros row Ht Hp.
  assert (Hrow : forall i a, row i (fun k => p k + a * dp k) - r i = (row i p - r i) + a * row i dp).
  { intros i a. unfold row. rewrite <- Rsum_scal.
    replace (Rsum n (fun k => C i k * (p k + a * dp k))) with (Rsum n (fun k => C i k * p k + a * (C i k * dp k))).
    - rewrite Rsum_plus. lra.
    - apply Rsum_ext. intros k _. ring. }
  pose proof (fraction_generic m (fun i => row i p - r i) (fun i => row i dp) tau (proj1 Ht)) as H.
  specialize (H ltac:(intros i Hi; specialize (Hp i Hi); simpl; lra)).
  specialize (H (fun a => 0 < a <= 1 /\ forall i, (i < m)%nat ->
      (1 - tau) * (row i p - r i) <= row i (fun k => p k + a * dp k) - r i)).
  cbv beta in H. destruct H as [H _].
  { intros a. split; intros [A B]; (split; [exact A|]); intros i Hi; specialize (B i Hi); rewrite Hrow in *; exact B. }
  rewrite fst_fold in H. simpl fst in H.
  replace (fractionToTheBoundaryC m n p dp C r tau) with
    (fold_left (fun a i => if rltb (row i dp) 0 then
       (if rltb (- tau * (row i p - r i) / row i dp) a then - tau * (row i p - r i) / row i dp else a) else a) (seq 0 m) 1).
  - exact H.
  - unfold fractionToTheBoundaryC. destruct m as [|m']; [reflexivity|]. cbn [Nat.eqb].
    apply fold_left_ext_in. intros a i _. unfold fractionC_iter. rewrite !ndot_Rsum. reflexivity.
Qed.

Lemma fractionLower_exact n (p dp lower : nat -> R) (tau : R) :
  0 < tau < 1 -> (forall i, (i < n)%nat -> lower i < p i) ->
  is_maximum (fun a => 0 < a <= 1 /\ forall i, (i < n)%nat ->
      (1 - tau) * (p i - lower i) <= (p i + a * dp i) - lower i)
    (fractionToTheLowerBoundary n p dp lower tau).
Proof.
  intros Ht Hp.
  pose proof (fraction_generic n (fun i => p i - lower i) dp tau (proj1 Ht)) as H.
  specialize (H ltac:(intros i Hi; specialize (Hp i Hi); simpl; lra)).
  specialize (H (fun a => 0 < a <= 1 /\ forall i, (i < n)%nat ->
      (1 - tau) * (p i - lower i) <= (p i + a * dp i) - lower i)).
  cbv beta in H. destruct H as [H _].
  { intros a. split; intros [A B]; (split; [exact A|]); intros i Hi; specialize (B i Hi); lra. }
  rewrite fst_fold in H. exact H.
Qed.
