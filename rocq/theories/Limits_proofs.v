(** Lemmas for C104: runs of the loop with other limits. *)
From Coq Require Import List Arith Bool Lia.
From Verif Require Import Num Loop_model.
Import ListNotations.

Section Limits.
Context {T : Type} {N : Num T} (W : Type).
Variable fupdate : W -> uvec T -> W.
Variable ferror : W -> uvec T -> T.
Variable newton : W -> W * uvec T.
Variable phi : option (W -> list T -> list T -> W * bool * list T).
Variable check : option (W -> uvec T -> uvec T -> T -> nat -> bool).
Variable B : bounds T.
Notation loop := (loop W fupdate ferror newton phi check).
Notation step := (step W fupdate ferror newton phi).
Notation stepping := (stepping W check).
Notation converged := (converged W check).

Definition looser (o o' : options T) : Prop := forall e, nltb e (o_tol o) = true -> nltb e (o_tol o') = true.

Lemma step_fix o o' s : o_fix o' = o_fix o -> step B o' s = step B o s.
Proof. intros F. unfold Loop_model.step. rewrite F. reflexivity. Qed.

Lemma iters_step o s : s_iters (step B o s) = S (s_iters s).
Proof.
  unfold Loop_model.step, newton_apply, transform.
  destruct (newton _) as [w du]. destruct phi as [ph|]; [|reflexivity].
  destruct (ph _ _ _) as [[w1 oc] x]. destruct (negb oc); [reflexivity|].
  destruct (ngtb _ _); reflexivity.
Qed.

Lemma iters_stepping o s : s_iters (fst (stepping o s)) = s_iters s.
Proof. unfold Loop_model.stepping. destruct (Nat.ltb _ _); reflexivity. Qed.

Lemma iters_loop fuel o s s' : loop fuel B o s = Some s' -> s_iters s < s_iters s'.
Proof.
  revert s. induction fuel as [|fuel IH]; intros s; [discriminate|]. cbn [Loop_model.loop].
  destruct (stepping o (step B o s)) as [s1 c] eqn:E.
  assert (I : s_iters s1 = S (s_iters s)).
  { pose proof (iters_stepping o (step B o s)) as H. rewrite E, iters_step in H. exact H. }
  destruct c; [|intros H; injection H as <-; lia].
  intros H. apply IH in H. lia.
Qed.

Lemma conv_looser o o' s : looser o o' -> converged o s = true -> converged o' s = true.
Proof.
  intros L. unfold Loop_model.converged. destruct (nltb (s_err s) (o_tol o)) eqn:E.
  - rewrite (L _ E). reflexivity.
  - intros H. destruct (nltb (s_err s) (o_tol o')); [reflexivity|exact H].
Qed.

(** a limit that is not reached does not matter *)
Lemma loop_limit fuel o o' s s' : o_fix o' = o_fix o -> o_tol o' = o_tol o ->
  loop fuel B o s = Some s' -> s_iters s' <= o_maxiters o -> s_iters s' <= o_maxiters o' -> loop fuel B o' s = Some s'.
Proof.
  intros F TL. revert s. induction fuel as [|fuel IH]; intros s; [discriminate|]. cbn [Loop_model.loop].
  rewrite (step_fix o o' s F). set (s0 := step B o s). unfold Loop_model.stepping at 1 2.
  assert (I0 : s_iters s0 = S (s_iters s)) by (apply iters_step).
  cbn [s_iters]. destruct (Nat.ltb_spec (o_maxiters o) (s_iters s0)) as [L|L].
  { intros H. injection H as <-. cbn. lia. }
  assert (C : forall x, converged o' x = converged o x) by (intros x; unfold Loop_model.converged; rewrite TL; reflexivity).
  cbn zeta. rewrite C. destruct (converged o _) eqn:CV; cbn [negb].
  - intros H. injection H as <-. cbn [s_iters]. intros _ L'.
    destruct (Nat.ltb_spec (o_maxiters o') (s_iters s0)); [lia|reflexivity].
  - intros H L1 L2. pose proof (iters_loop _ _ _ _ H) as I1. cbn [s_iters] in I1.
    destruct (Nat.ltb_spec (o_maxiters o') (s_iters s0)); [lia|]. apply IH; assumption.
Qed.

(** a run that fails fails in the same way with a smaller tolerance *)
Lemma loop_fails fuel o o' s s' : o_fix o' = o_fix o -> o_maxiters o' = o_maxiters o -> looser o' o ->
  loop fuel B o s = Some s' -> o_maxiters o < s_iters s' -> loop fuel B o' s = Some s'.
Proof.
  intros F MX TL. revert s. induction fuel as [|fuel IH]; intros s; [discriminate|]. cbn [Loop_model.loop].
  rewrite (step_fix o o' s F). set (s0 := step B o s). unfold Loop_model.stepping at 1 2.
  cbn [s_iters]. rewrite MX. destruct (Nat.ltb_spec (o_maxiters o) (s_iters s0)) as [L|L]; [auto|].
  cbn zeta. destruct (converged o _) eqn:CV; cbn [negb].
  - intros H. injection H as <-. cbn [s_iters]. lia.
  - assert (CV' : forall x, converged o x = false -> converged o' x = false).
    { intros x H. destruct (converged o' x) eqn:E; [|reflexivity]. apply (conv_looser _ _ _ TL) in E. congruence. }
    rewrite (CV' _ CV). cbn [negb]. apply IH.
Qed.

(** a run that succeeds does not take longer with a larger tolerance, and stops where the
    first run would have been stopped by a limit *)
Lemma loop_looser fuel o o' s s' : o_fix o' = o_fix o -> o_maxiters o <= o_maxiters o' -> looser o o' ->
  loop fuel B o s = Some s' -> s_iters s' <= o_maxiters o ->
  exists s'', loop fuel B o' s = Some s'' /\ s_iters s'' <= s_iters s' /\
    (s'' = s' \/ s_iters s'' < s_iters s' /\
     exists t, loop fuel B (Options (s_iters s'' - 1) (o_tol o) (o_fix o)) s = Some t /\ s_iters t = s_iters s'' /\ s_u t = s_u s'' /\ s_w t = s_w s'').
Proof.
  intros F MX TL. revert s. induction fuel as [|fuel IH]; intros s; [discriminate|]. cbn [Loop_model.loop].
  rewrite (step_fix o o' s F).
  assert (FS : forall k, step B (Options k (o_tol o) (o_fix o)) s = step B o s) by (intros k; apply step_fix; reflexivity).
  set (s0 := step B o s) in *. unfold Loop_model.stepping at 1 2.
  assert (I0 : s_iters s0 = S (s_iters s)) by (apply iters_step).
  cbn [s_iters]. destruct (Nat.ltb_spec (o_maxiters o) (s_iters s0)) as [L|L].
  { intros H. injection H as <-. cbn. lia. }
  destruct (Nat.ltb_spec (o_maxiters o') (s_iters s0)) as [L'|L']; [lia|].
  cbn zeta. destruct (converged o _) eqn:CV; cbn [negb].
  - rewrite (conv_looser _ _ _ TL CV). cbn [negb]. intros H LS. injection H as <-.
    eexists. split; [reflexivity|]. split; [apply le_n|left; reflexivity].
  - intros H LS. pose proof (iters_loop _ _ _ _ H) as I1. cbn [s_iters] in I1.
    destruct (converged o' _) eqn:CV'; cbn [negb].
    + eexists. split; [reflexivity|]. cbn [s_iters s_u s_w]. split; [lia|right]. split; [lia|].
      eexists. split; [|split; [|split]].
      * rewrite FS. unfold Loop_model.stepping. cbn [s_iters o_maxiters].
        destruct (Nat.ltb_spec (s_iters s0 - 1) (s_iters s0)); [reflexivity|lia].
      * reflexivity.
      * reflexivity.
      * reflexivity.
    + destruct (IH _ H LS) as (s'' & E & I2 & D). exists s''. split; [exact E|]. split; [exact I2|].
      destruct D as [D|(D & t & Et & It)]; [left; exact D|right]. split; [exact D|].
      exists t. split; [|exact It]. pose proof (iters_loop _ _ _ _ E) as I3. cbn [s_iters] in I3.
      rewrite FS. unfold Loop_model.stepping. cbn [s_iters o_maxiters].
      destruct (Nat.ltb_spec (s_iters s'' - 1) (s_iters s0)); [lia|].
      assert (C : forall x, converged (Options (s_iters s'' - 1) (o_tol o) (o_fix o)) x = converged o x) by reflexivity.
      rewrite C, CV. cbn [negb]. exact Et.
Qed.
End Limits.

(** ** Resuming a calculation *)
Section Resume.
Context {T : Type} {N : Num T} (W : Type).
Variable fupdate : W -> uvec T -> W.
Variable ferror : W -> uvec T -> T.
Variable newton : W -> W * uvec T.
Variable phi : option (W -> list T -> list T -> W * bool * list T).
Variable B : bounds T.
Variable same : W -> W -> Prop.
Hypothesis same_update : forall w w' u, same (fupdate w u) (fupdate w' u).
Hypothesis same_error : forall w w' u, same w w' -> ferror w u = ferror w' u.
Hypothesis same_newton : forall w w', same w w' -> snd (newton w) = snd (newton w').
Hypothesis same_phi : forall ph w w' xo x, phi = Some ph ->
  snd (fst (ph w xo x)) = snd (fst (ph w' xo x)) /\ snd (ph w xo x) = snd (ph w' xo x).
Notation loop := (loop W fupdate ferror newton phi None).
Notation step := (step W fupdate ferror newton phi).
Notation stepping := (stepping W None).

Definition like (s s' : state T W) : Prop := same (s_w s) (s_w s') /\ s_uo s = s_uo s' /\ s_u s = s_u s' /\ s_err s = s_err s'.

Lemma like_update s s' u : s_uo s = s_uo s' -> like (update W fupdate ferror s u) (update W fupdate ferror s' u).
Proof.
  intros O. unfold update, like. cbn [s_w s_uo s_u s_err]. split; [apply same_update|]. split; [exact O|]. split; [reflexivity|].
  apply same_error, same_update.
Qed.

Lemma like_step o s s' : like s s' -> like (step B o s) (step B o s').
Proof.
  intros (L1 & L2 & L3 & L4). unfold Loop_model.step.
  set (a := State (s_w s) _ _ _ _ _ _ _). set (a' := State (s_w s') _ _ _ _ _ _ _).
  set (n := newton_apply W newton a). set (n' := newton_apply W newton a').
  assert (NW : s_u n = s_u n' /\ s_uo n = s_uo n' /\ s_err n = s_err n').
  { unfold n, n', newton_apply. subst a a'. cbn [s_w s_uo s_u s_err]. pose proof (same_newton _ _ L1) as E.
    destruct (newton (s_w s)) as [w du], (newton (s_w s')) as [w' du']. cbn [snd] in E. subst du'.
    unfold with_u. cbn [s_uo s_u s_err]. rewrite L2, L4. repeat split. }
  destruct NW as (N1 & N2 & N3).
  assert (TR : s_u (fst (transform W fupdate ferror phi B n)) = s_u (fst (transform W fupdate ferror phi B n')) /\
               s_uo (fst (transform W fupdate ferror phi B n)) = s_uo (fst (transform W fupdate ferror phi B n'))).
  { unfold transform. destruct phi as [ph|]; [|split; assumption].
    destruct (same_phi ph (s_w n) (s_w n') (ux (s_uo n)) (ux (s_u n)) eq_refl) as [P1 P2]. rewrite <- N1, <- N2.
    destruct (ph (s_w n) _ _) as [[w1 oc] x1], (ph (s_w n') _ _) as [[w1' oc'] x1']. cbn [fst snd] in P1, P2. subst oc' x1'.
    destruct (negb oc); [split; [reflexivity|exact N2]|].
    set (u := UVec _ _ _).
    assert (EE : s_err (update W fupdate ferror (with_u W n w1 u) u) = s_err (update W fupdate ferror (with_u W n' w1' u) u)).
    { apply like_update. exact N2. }
    rewrite EE, N3. destruct (ngtb _ _); (split; [reflexivity|exact N2]). }
  destruct TR as [T1 T2].
  destruct (transform W fupdate ferror phi B n) as [t b], (transform W fupdate ferror phi B n') as [t' b']. cbn [fst] in T1, T2.
  cbn [with_u s_w s_u s_uo]. rewrite <- T1, <- T2. set (v := backtrack _ _ _ _).
  exact (like_update _ _ v T2).
Qed.

Lemma like_loop fuel o o' k s s' t' : o_tol o = o_tol o' -> o_fix o = o_fix o' -> o_maxiters o = k + o_maxiters o' ->
  like s s' -> s_iters s = k + s_iters s' -> loop fuel B o' s' = Some t' ->
  exists t, loop fuel B o s = Some t /\ same (s_w t) (s_w t') /\ s_u t = s_u t' /\ s_iters t = k + s_iters t'.
Proof.
  intros TL F MX. revert s s'. induction fuel as [|fuel IH]; intros s s' L I; [discriminate|]. cbn [Loop_model.loop].
  rewrite (step_fix W fupdate ferror newton phi B o' o s F).
  pose proof (like_step o' s s' L) as (L1 & L2 & L3 & L4).
  set (a := step B o' s) in *. set (a' := step B o' s') in *.
  assert (I1 : s_iters a = k + s_iters a') by (unfold a, a'; rewrite !iters_step; lia).
  unfold Loop_model.stepping. cbn [s_iters]. rewrite MX, I1.
  assert (EL : Nat.ltb (k + o_maxiters o') (k + s_iters a') = Nat.ltb (o_maxiters o') (s_iters a')).
  { destruct (Nat.ltb_spec (k + o_maxiters o') (k + s_iters a')), (Nat.ltb_spec (o_maxiters o') (s_iters a')); lia || reflexivity. }
  rewrite EL. destruct (Nat.ltb (o_maxiters o') (s_iters a')) eqn:EB.
  { intros H. injection H as <-. eexists. split; [reflexivity|]. cbn [s_w s_u s_iters]. repeat split; assumption. }
  unfold converged. cbn [s_err]. rewrite TL, L4. destruct (nltb (s_err a') (o_tol o')); cbn [negb].
  - intros H. injection H as <-. eexists. split; [reflexivity|]. cbn [s_w s_u s_iters]. repeat split; assumption.
  - apply IH; [|reflexivity]. unfold like. cbn [s_w s_uo s_u s_err]. repeat split; congruence.
Qed.

Lemma loop_mono fuel fuel' o s s' : fuel <= fuel' -> loop fuel B o s = Some s' -> loop fuel' B o s = Some s'.
Proof.
  revert fuel' s. induction fuel as [|fuel IH]; intros fuel' s L; [discriminate|]. destruct fuel' as [|fuel']; [lia|]. cbn [Loop_model.loop].
  destruct (stepping o (step B o s)) as [s1 []]; [|auto]. apply IH. lia.
Qed.

(** the last state of a run belongs to its point *)
Lemma step_at o s : exists w, s_w (step B o s) = fupdate w (s_u (step B o s)) /\ s_err (step B o s) = ferror (s_w (step B o s)) (s_u (step B o s)).
Proof.
  unfold Loop_model.step. destruct (transform _ _ _ _ _ _) as [t b]. cbn [update with_u s_w s_u s_err]. eexists. split; reflexivity.
Qed.

(** a run stopped by the limit and resumed from its last point, against the run with the
    limits added up *)
Lemma loop_resume f1 f2 o1 o2 s s1 w hist s2 : o_tol o2 = o_tol o1 -> o_fix o2 = o_fix o1 ->
  loop f1 B o1 s = Some s1 -> o_maxiters o1 < s_iters s1 -> nltb (s_err s1) (o_tol o1) = false -> clampu B (s_u s1) = s_u s1 ->
  loop f2 B o2 (initialize W fupdate ferror B w hist (s_u s1)) = Some s2 ->
  exists t, loop (f1 + f2) B (Options (s_iters s1 + o_maxiters o2) (o_tol o1) (o_fix o1)) s = Some t /\ same (s_w t) (s_w s2) /\ s_u t = s_u s2 /\ s_iters t = s_iters s1 + s_iters s2.
Proof.
  intros TL F H1 MX NC CL H2. revert s H1. induction f1 as [|f1 IH]; intros s; [discriminate|]. cbn [Loop_model.loop Nat.add].
  set (o := Options _ _ _).
  rewrite (step_fix W fupdate ferror newton phi B o1 o s eq_refl). destruct (step_at o1 s) as (w1 & A1 & A2).
  set (a := step B o1 s) in *. unfold Loop_model.stepping at 1. cbn [s_iters].
  destruct (Nat.ltb_spec (o_maxiters o1) (s_iters a)) as [L|L].
  - intros H. injection H as <-. cbn [s_iters s_u s_w s_err] in *.
    unfold Loop_model.stepping. cbn [s_iters]. subst o. cbn [o_maxiters].
    destruct (Nat.ltb_spec (s_iters a + o_maxiters o2) (s_iters a)); [lia|].
    unfold converged. cbn [s_err o_tol]. rewrite NC. cbn [negb].
    set (b := State (s_w a) (s_u a) (s_u a) (s_err a) (s_iters a) (s_hist a ++ [s_err a]) (s_evals a) (s_iterates a)).
    assert (LB : like b (initialize W fupdate ferror B w hist (s_u a))).
    { unfold like, initialize, update, b. cbn [s_w s_uo s_u s_err]. rewrite CL. split; [rewrite A1; apply same_update|].
      split; [reflexivity|]. split; [reflexivity|]. rewrite A2. apply same_error. rewrite A1. apply same_update. }
    assert (IB : s_iters b = s_iters a + s_iters (initialize W fupdate ferror B w hist (s_u a))) by (cbn; lia).
    destruct (like_loop f2 (Options (s_iters a + o_maxiters o2) (o_tol o1) (o_fix o1)) o2 (s_iters a) b _ s2 (eq_sym TL) (eq_sym F) eq_refl LB IB H2) as (t & Et & R).
    exists t. split; [|exact R]. apply loop_mono with f2; [lia|exact Et].
  - cbn zeta. destruct (converged W None o1 _) eqn:CV; cbn [negb].
    { intros H. injection H as <-. cbn [s_iters] in MX. lia. }
    intros H. pose proof (iters_loop W fupdate ferror newton phi None B _ _ _ _ H) as I1. cbn [s_iters] in I1.
    unfold Loop_model.stepping. cbn [s_iters]. subst o. cbn [o_maxiters].
    destruct (Nat.ltb_spec (s_iters s1 + o_maxiters o2) (s_iters a)); [lia|].
    assert (C : forall k x, converged W None (Options k (o_tol o1) (o_fix o1)) x = converged W None o1 x) by reflexivity.
    cbn zeta. rewrite C, CV. cbn [negb]. apply IH. exact H.
Qed.

(** a run stopped by the limit at a point that meets the tolerance *)
Lemma loop_noticed f1 o1 k s s1 : loop f1 B o1 s = Some s1 -> o_maxiters o1 < s_iters s1 -> nltb (s_err s1) (o_tol o1) = true -> s_iters s1 <= k ->
  exists t, loop f1 B (Options k (o_tol o1) (o_fix o1)) s = Some t /\ s_w t = s_w s1 /\ s_u t = s_u s1 /\ s_iters t = s_iters s1.
Proof.
  intros H1 MX C K. revert s H1. induction f1 as [|f1 IH]; intros s; [discriminate|]. cbn [Loop_model.loop].
  set (o := Options _ _ _).
  rewrite (step_fix W fupdate ferror newton phi B o1 o s eq_refl).
  set (a := step B o1 s) in *. unfold Loop_model.stepping at 1. cbn [s_iters].
  destruct (Nat.ltb_spec (o_maxiters o1) (s_iters a)) as [L|L].
  - intros H. injection H as <-. cbn [s_iters s_u s_w s_err] in *.
    unfold Loop_model.stepping. cbn [s_iters]. subst o. cbn [o_maxiters].
    destruct (Nat.ltb_spec k (s_iters a)); [lia|].
    unfold converged. cbn [s_err o_tol]. rewrite C. cbn [negb].
    eexists. split; [reflexivity|]. repeat split.
  - cbn zeta. destruct (converged W None o1 _) eqn:CV; cbn [negb].
    { intros H. injection H as <-. cbn [s_iters] in MX. lia. }
    intros H. pose proof (iters_loop W fupdate ferror newton phi None B _ _ _ _ H) as I1. cbn [s_iters] in I1.
    unfold Loop_model.stepping. cbn [s_iters]. subst o. cbn [o_maxiters].
    destruct (Nat.ltb_spec k (s_iters a)); [lia|].
    assert (CE : forall x, converged W None (Options k (o_tol o1) (o_fix o1)) x = converged W None o1 x) by reflexivity.
    cbn zeta. rewrite CE, CV. cbn [negb]. apply IH. exact H.
Qed.
End Resume.
