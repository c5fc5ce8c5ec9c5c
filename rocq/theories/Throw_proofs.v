(** Lemmas for C108. *)
From Coq Require Import List Arith Bool Lia.
From Verif Require Import Num Num_facts Index_model Loop_model Loop_spec Loop_proofs Limits_proofs Wrapper_model Throw_model Throw_spec.
Import ListNotations.

Section Throw.
Context {T : Type} {N : Num T} (W : Type).
Variable fupdate : W -> uvec T -> W * bool.
Variable ferror : W -> uvec T -> T.
Variable newton : W -> W * uvec T.
Variable phi : option (W -> list T -> list T -> W * option bool * list T).
Variable check : option (W -> uvec T -> uvec T -> T -> nat -> option bool).
Notation t_update := (t_update W fupdate ferror).
Notation t_initialize := (t_initialize W fupdate ferror).
Notation t_transform := (t_transform W fupdate ferror phi).
Notation t_step := (t_step W fupdate ferror newton phi).
Notation t_stepping := (t_stepping W check).
Notation t_loop := (t_loop W fupdate ferror newton phi check).
Notation t_solve := (t_solve W fupdate ferror newton phi check).
Notation update := (update W (quiet_update fupdate) ferror).
Notation initialize := (initialize W (quiet_update fupdate) ferror).
Notation transform := (transform W (quiet_update fupdate) ferror (quiet_phi phi)).
Notation step := (step W (quiet_update fupdate) ferror newton (quiet_phi phi)).
Notation stepping := (stepping W (quiet_check check)).
Notation loop := (loop W (quiet_update fupdate) ferror newton (quiet_phi phi) (quiet_check check)).
Notation solve := (solve W (quiet_update fupdate) ferror newton (quiet_phi phi) (quiet_check check)).

(* ---------- calls that return ---------- *)
Lemma ret_update s u s' : t_update s u = Ret s' -> update s u = s'.
Proof.
  unfold Throw_model.t_update, Loop_model.update, quiet_update. destruct (fupdate (s_w s) u) as [w []]; [discriminate|].
  intros H. now injection H as <-.
Qed.
Lemma ret_initialize B w hist u s : t_initialize B w hist u = Ret s -> initialize B w hist u = s.
Proof.
  unfold Throw_model.t_initialize, Loop_model.initialize. destruct (t_update _ _) as [s1|] eqn:E; cbn [bind]; [|discriminate].
  apply ret_update in E. rewrite E. intros H. now injection H as <-.
Qed.
Lemma ret_transform B s r : t_transform B s = Ret r -> transform B s = r.
Proof.
  unfold Throw_model.t_transform, Loop_model.transform, quiet_phi. destruct phi as [ph|]; [|intros H; now injection H as <-].
  cbv zeta. destruct (ph (s_w s) (ux (s_uo s)) (ux (s_u s))) as [[w [[]|]] x]; cbn [fst snd quiet_outcome negb]; [| |discriminate].
  - destruct (t_update _ _) as [s1|] eqn:E; cbn [bind]; [|discriminate]. apply ret_update in E. rewrite E.
    destruct (ngtb (s_err s1) (s_err s)); [|intros H; now injection H as <-].
    destruct (t_update (with_u W s1 _ _) _) as [s2|] eqn:E2; cbn [bind]; [|discriminate]. apply ret_update in E2. rewrite E2.
    intros H; now injection H as <-.
  - destruct (t_update _ _) as [s1|] eqn:E; cbn [bind]; [|discriminate]. apply ret_update in E. rewrite E. intros H; now injection H as <-.
Qed.
Lemma ret_step B o s s' : t_step B o s = Ret s' -> step B o s = s'.
Proof.
  unfold Throw_model.t_step, Loop_model.step. set (s0 := newton_apply W newton _).
  destruct (t_transform B s0) as [[s1 b]|] eqn:E; cbn [bind]; [|discriminate]. apply ret_transform in E. rewrite E. cbn [fst].
  destruct (t_update _ _) as [s2|] eqn:E2; cbn [bind]; [|discriminate]. apply ret_update in E2. rewrite E2. intros H; now injection H as <-.
Qed.
Lemma ret_stepping o s r : t_stepping o s = Ret r -> stepping o s = r.
Proof.
  unfold Throw_model.t_stepping, Loop_model.stepping. set (s0 := State _ _ _ _ _ _ _ _). destruct (Nat.ltb _ _); [intros H; now injection H as <-|].
  unfold t_converged, converged, quiet_check. destruct (nltb _ _); cbn [bind]; [intros H; now injection H as <-|].
  destruct check as [c|]; cbn [bind]; [|intros H; now injection H as <-].
  destruct (c _ _ _ _ _) as [b|]; cbn [bind quiet_outcome]; [intros H; now injection H as <-|discriminate].
Qed.
Lemma ret_loop fuel B o : forall s s', t_loop fuel B o s = Some (Ret s') -> loop fuel B o s = Some s'.
Proof.
  induction fuel as [|fuel IH]; intros s s'; [discriminate|]. cbn [Throw_model.t_loop Loop_model.loop].
  destruct (t_step B o s) as [s1|] eqn:E; cbn [bind]; [|discriminate]. apply ret_step in E. rewrite E.
  destruct (t_stepping o s1) as [[s2 c]|] eqn:E2; [|discriminate]. apply ret_stepping in E2. rewrite E2.
  destruct c; [apply IH|]. intros H. now injection H as <-.
Qed.
Lemma ret_solve fuel B o w hist u r s : t_solve fuel B o w hist u = Some (Ret (r, s)) -> solve fuel B o w hist u = Some (r, s).
Proof.
  unfold Throw_model.t_solve, Loop_model.solve. destruct (t_initialize B w hist u) as [s0|] eqn:E; [|discriminate]. apply ret_initialize in E. rewrite E.
  destruct (t_loop fuel B o s0) as [[s1|]|] eqn:E1; [|discriminate|discriminate]. apply ret_loop in E1. rewrite E1. intros H. now injection H as <- <-.
Qed.

(* ---------- nothing throws ---------- *)
Section Quiet.
Hypothesis Q : never_throw fupdate phi check.
Lemma quiet_u (Q1 : forall w u, snd (fupdate w u) = false) s u : exists s', t_update s u = Ret s'.
Proof. unfold Throw_model.t_update. specialize (Q1 (s_w s) u). destruct (fupdate (s_w s) u) as [w t]. cbn [snd] in Q1. rewrite Q1. eauto. Qed.
Lemma quiet_t B s : exists r, t_transform B s = Ret r.
Proof.
  destruct Q as (Q1 & Q2' & _). unfold Throw_model.t_transform. destruct phi as [ph|]; [|eauto]. pose proof (Q2' ph (s_w s) (ux (s_uo s)) (ux (s_u s)) eq_refl) as Q2.
  cbv zeta. destruct (ph _ _ _) as [[w [[]|]] x]; cbn [fst snd] in Q2; [| |now destruct Q2].
  - destruct (quiet_u Q1 (with_u W s w (UVec (clampv x (xlo B) (xhi B)) (up (s_u s)) (uw (s_u s)))) (UVec (clampv x (xlo B) (xhi B)) (up (s_u s)) (uw (s_u s)))) as [s1 ->]. cbn [bind].
    destruct (ngtb _ _); [|eauto]. destruct (quiet_u Q1 (with_u W s1 (s_w s1) (s_u s)) (s_u s)) as [s2 ->]. cbn [bind]. eauto.
  - destruct (quiet_u Q1 (with_u W s w (s_u s)) (s_u s)) as [s1 ->]. cbn [bind]. eauto.
Qed.
Lemma quiet_s B o s : exists s', t_step B o s = Ret s'.
Proof.
  unfold Throw_model.t_step. set (s0 := newton_apply W newton _). destruct (quiet_t B s0) as [[s1 b] ->]. cbn [bind fst].
  set (s2 := with_u W s1 _ _). destruct (quiet_u (proj1 Q) s2 (s_u s2)) as [s3 ->]. cbn [bind]. eauto.
Qed.
Lemma quiet_g o s : exists r, t_stepping o s = Ret r.
Proof.
  destruct Q as (_ & _ & Q3'). unfold Throw_model.t_stepping. set (s0 := State _ _ _ _ _ _ _ _). destruct (Nat.ltb _ _); [eauto|]. unfold t_converged. destruct (nltb _ _); cbn [bind]; [eauto|].
  destruct check as [c|]; cbn [bind]; [|eauto]. pose proof (Q3' c (s_w s0) (s_uo s0) (s_u s0) (s_err s0) (s_iters s0) eq_refl) as Q3.
  destruct (c _ _ _ _ _) as [b|]; cbn [bind]; [eauto|now destruct Q3].
Qed.
Lemma quiet_l fuel B o : forall s, t_loop fuel B o s = option_map Ret (loop fuel B o s).
Proof.
  induction fuel as [|fuel IH]; intros s; [reflexivity|]. cbn [Throw_model.t_loop Loop_model.loop].
  destruct (quiet_s B o s) as [s1 E]. pose proof (ret_step _ _ _ _ E) as E'. rewrite E, E'. cbn [bind].
  destruct (quiet_g o s1) as [[s2 c] E2]. pose proof (ret_stepping _ _ _ E2) as E2'. rewrite E2, E2'. destruct c; [apply IH|reflexivity].
Qed.
Lemma quiet_solve fuel B o w hist u : t_solve fuel B o w hist u = option_map Ret (solve fuel B o w hist u).
Proof.
  unfold Throw_model.t_solve, Loop_model.solve.
  assert (I : exists s, t_initialize B w hist u = Ret s).
  { unfold Throw_model.t_initialize. destruct (quiet_u (proj1 Q) (State w (clampu B u) (clampu B u) nzero 0 hist [] []) (clampu B u)) as [s1 ->]. cbn [bind]. eauto. }
  destruct I as [s E]. pose proof (ret_initialize _ _ _ _ _ E) as E'. rewrite E, E', quiet_l. destruct (loop fuel B o s); reflexivity.
Qed.
End Quiet.

(* ---------- calls that throw ---------- *)
Notation threw := (threw_at fupdate phi check).
Lemma throw_update s u t : t_update s u = Throw t -> (exists w, fupdate w (s_u t) = (s_w t, true)) /\ s_u t = u /\ s_uo t = s_uo s.
Proof.
  unfold Throw_model.t_update. destruct (fupdate (s_w s) u) as [w []] eqn:E; [|discriminate]. intros H. injection H as <-. cbn [s_u s_w s_uo]. eauto.
Qed.
Lemma throw_initialize B w hist u t : t_initialize B w hist u = Throw t -> threw t /\ s_u t = clampu B u.
Proof.
  unfold Throw_model.t_initialize. destruct (t_update _ _) as [|s1] eqn:E; cbn [bind]; [discriminate|]. apply throw_update in E.
  intros H. injection H as <-. split; [left|]; apply E.
Qed.
Lemma throw_transform B s t : t_transform B s = Throw t -> threw t /\ phi <> None.
Proof.
  unfold Throw_model.t_transform, threw_at. destruct phi as [ph|] eqn:P; [|discriminate]. intros H. split; [|discriminate]. revert H.
  cbv zeta. destruct (ph (s_w s) (ux (s_uo s)) (ux (s_u s))) as [[w [[]|]] x] eqn:E.
  - destruct (t_update _ _) as [s1|s1] eqn:E1; cbn [bind].
    + destruct (ngtb _ _); [|discriminate]. destruct (t_update (with_u W s1 _ _) _) as [|s2] eqn:E2; cbn [bind]; [discriminate|]. apply throw_update in E2.
      intros H. injection H as <-. left. apply E2.
    + apply throw_update in E1. intros H. injection H as <-. left. apply E1.
  - destruct (t_update _ _) as [|s1] eqn:E1; cbn [bind]; [discriminate|]. apply throw_update in E1. intros H. injection H as <-. left. apply E1.
  - intros H. injection H as <-. right. left. exists ph, (s_w s), (ux (s_uo s)), (ux (s_u s)). cbn. auto.
Qed.
Lemma throw_step B o s t : t_step B o s = Throw t -> threw t /\ (phi = None -> exists uo u, s_u t = backtrack (o_fix o) B uo u).
Proof.
  unfold Throw_model.t_step. set (s0 := newton_apply W newton _). destruct (t_transform B s0) as [[s1 b]|s1] eqn:E; cbn [bind fst].
  - destruct (t_update _ _) as [|s2] eqn:E2; cbn [bind]; [discriminate|]. apply throw_update in E2. intros H. injection H as <-.
    split; [left; apply E2|]. intros _. destruct E2 as (_ & -> & _). cbn [s_u with_u]. eauto.
  - apply throw_transform in E. intros H. injection H as <-. split; [apply E|]. intros P. now destruct (proj2 E).
Qed.
Lemma throw_stepping o s t : t_stepping o s = Throw t -> threw t /\ s_u t = s_u s.
Proof.
  unfold Throw_model.t_stepping. set (s0 := State _ _ _ _ _ _ _ _). destruct (Nat.ltb _ _); [discriminate|]. unfold t_converged, threw_at. destruct (nltb _ _); cbn [bind]; [discriminate|].
  destruct check as [c|]; cbn [bind]; [|discriminate]. destruct (c _ _ _ _ _) as [b|] eqn:E; cbn [bind]; [discriminate|].
  intros H. injection H as <-. split; [|reflexivity]. right. right. exists c. split; [reflexivity|exact E].
Qed.
Lemma throw_loop fuel B o : forall s t, t_loop fuel B o s = Some (Throw t) -> threw t /\ (phi = None -> exists uo u, s_u t = backtrack (o_fix o) B uo u).
Proof.
  induction fuel as [|fuel IH]; intros s t; [discriminate|]. cbn [Throw_model.t_loop].
  destruct (t_step B o s) as [s1|s1] eqn:E; cbn [bind].
  - destruct (t_stepping o s1) as [[s2 c]|s2] eqn:E2.
    + destruct c; [apply IH|discriminate].
    + apply throw_stepping in E2. intros H. injection H as <-. split; [apply E2|]. intros P. destruct E2 as [_ ->].
      apply ret_step in E. pose proof (step_frame W (quiet_update fupdate) ferror newton (quiet_phi phi) B o s) as F. cbn zeta in F. rewrite E in F.
      destruct F as (_ & _ & _ & _ & _ & _ & u & F). eauto.
  - apply throw_step in E. intros H. injection H as <-. exact E.
Qed.
Lemma throw_solve fuel B o w hist u t : t_solve fuel B o w hist u = Some (Throw t) ->
  threw t /\ (phi = None -> s_u t = clampu B u \/ exists uo v, s_u t = backtrack (o_fix o) B uo v).
Proof.
  unfold Throw_model.t_solve. destruct (t_initialize B w hist u) as [s0|s0] eqn:E.
  - destruct (t_loop fuel B o s0) as [[s1|s1]|] eqn:E1; [discriminate| |discriminate]. apply throw_loop in E1. intros H. injection H as <-.
    split; [apply E1|]. intros P. right. now apply E1.
  - apply throw_initialize in E. intros H. injection H as <-. split; [apply E|]. intros _. left. apply E.
Qed.
End Throw.
