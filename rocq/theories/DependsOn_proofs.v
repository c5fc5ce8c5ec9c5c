(** Lemmas for C110: a calculation depends on the function evaluations at the points evaluated only. *)
From Coq Require Import List Arith Bool Lia.
From Verif Require Import Num Loop_model.
Import ListNotations.

Section Local.
Context {T : Type} {N : Num T} (W : Type).
Variables fup fup' : W -> uvec T -> W.
Variable ferror : W -> uvec T -> T.
Variable newton : W -> W * uvec T.
Variable phi : option (W -> list T -> list T -> W * bool * list T).
Variable check : option (W -> uvec T -> uvec T -> T -> nat -> bool).
Variable B : bounds T.
Notation update := (Loop_model.update W fup ferror).
Notation update' := (Loop_model.update W fup' ferror).
Notation step := (Loop_model.step W fup ferror newton phi).
Notation step' := (Loop_model.step W fup' ferror newton phi).
Notation loop := (Loop_model.loop W fup ferror newton phi check).
Notation loop' := (Loop_model.loop W fup' ferror newton phi check).
Definition agree (l : list (uvec T)) : Prop := forall u w, In u l -> fup' w u = fup w u.

Lemma update_local s u : (forall w, fup' w u = fup w u) -> update' s u = update s u.
Proof. intros H. unfold Loop_model.update. rewrite H. reflexivity. Qed.

Lemma transform_local s : (forall u w, In u (s_evals (fst (transform W fup ferror phi B s))) -> fup' w u = fup w u) ->
  transform W fup' ferror phi B s = transform W fup ferror phi B s.
Proof.
  unfold transform. destruct phi as [ph|]; [|reflexivity]. destruct (ph _ _ _) as [[w oc] x].
  destruct (negb oc).
  - cbn [fst]. intros H. rewrite update_local; [reflexivity|]. intros w0. apply H. left. reflexivity.
  - set (u := UVec _ _ _). intros H.
    assert (U : forall w0, fup' w0 u = fup w0 u).
    { intros w0. apply H. destruct (ngtb _ _); cbn; auto. }
    rewrite (update_local (with_u W s w u) u U). destruct (ngtb _ _) eqn:G; [|reflexivity].
    rewrite update_local; [reflexivity|]. intros w0. apply H. cbn. left. reflexivity.
Qed.

Lemma transform_more s u : In u (s_evals s) -> In u (s_evals (fst (transform W fup ferror phi B s))).
Proof.
  intros I. unfold transform. destruct phi as [ph|]; [|exact I]. destruct (ph _ _ _) as [[w oc] x].
  destruct (negb oc); [cbn; auto|]. destruct (ngtb _ _); cbn; auto.
Qed.

Lemma newton_more s : s_evals (newton_apply W newton s) = s_evals s.
Proof. unfold newton_apply. destruct (newton _). reflexivity. Qed.

Lemma step_more o s u : In u (s_evals s) -> In u (s_evals (step B o s)).
Proof.
  intros I. unfold Loop_model.step. set (s0 := State _ _ _ _ _ _ _ _).
  pose proof (transform_more (newton_apply W newton s0) u) as H. rewrite newton_more in H. specialize (H I).
  destruct (transform _ _ _ _ _ _) as [s1 b]. cbn in *. auto.
Qed.

Lemma step_local o s : agree (s_evals (step B o s)) -> step' B o s = step B o s.
Proof.
  unfold Loop_model.step. set (s0 := newton_apply _ _ _).
  pose proof (transform_local s0) as H. destruct (transform W fup ferror phi B s0) as [s1 b] eqn:E.
  intros A. rewrite H.
  - cbn zeta. rewrite update_local; [reflexivity|]. intros w. apply A. cbn. auto.
  - intros u w I. apply A. cbn in *. auto.
Qed.

Lemma stepping_evals o s : s_evals (fst (stepping W check o s)) = s_evals s.
Proof. unfold stepping. destruct (Nat.ltb _ _); reflexivity. Qed.

Lemma loop_more fuel o s s' : loop fuel B o s = Some s' -> forall u, In u (s_evals s) -> In u (s_evals s').
Proof.
  revert s. induction fuel as [|fuel IH]; intros s; [discriminate|]. cbn [Loop_model.loop].
  pose proof (stepping_evals o (step B o s)) as SE. destruct (stepping W check o (step B o s)) as [s1 c].
  destruct c; intros H u I; [apply (IH _ H)|injection H as <-]; cbn in SE; rewrite SE; apply step_more; exact I.
Qed.

Lemma loop_local fuel o s s' : loop fuel B o s = Some s' -> agree (s_evals s') -> loop' fuel B o s = Some s'.
Proof.
  revert s. induction fuel as [|fuel IH]; intros s; [discriminate|]. cbn [Loop_model.loop]. intros H A.
  rewrite step_local.
  - destruct (stepping W check o (step B o s)) as [s1 c]. destruct c; [apply IH; assumption|exact H].
  - intros u w I. apply A. pose proof (stepping_evals o (step B o s)) as SE. destruct (stepping W check o (step B o s)) as [s1 c].
    cbn in SE. destruct c; [apply (loop_more _ _ _ _ H)|injection H as <-]; rewrite SE; exact I.
Qed.

Lemma solve_local fuel o w hist u r s : solve W fup ferror newton phi check fuel B o w hist u = Some (r, s) -> agree (s_evals s) ->
  solve W fup' ferror newton phi check fuel B o w hist u = Some (r, s).
Proof.
  unfold solve. destruct (loop fuel B o _) as [s1|] eqn:E; [|discriminate]. intros H A. injection H as <- <-.
  assert (I : initialize W fup' ferror B w hist u = initialize W fup ferror B w hist u).
  { unfold initialize. cbn zeta. rewrite update_local; [reflexivity|]. intros w0. apply A. apply (loop_more _ _ _ _ E). left. reflexivity. }
  rewrite I, (loop_local _ _ _ _ E A). reflexivity.
Qed.
Lemma solve_last fuel o w hist u r s : solve W fup ferror newton phi check fuel B o w hist u = Some (r, s) -> In (s_u s) (s_evals s).
Proof.
  unfold solve. destruct (loop fuel B o _) as [s1|] eqn:E; [|discriminate]. intros H. injection H as <- <-.
  revert E. generalize (initialize W fup ferror B w hist u). induction fuel as [|fuel IH]; intros s0; [discriminate|]. cbn [Loop_model.loop].
  destruct (stepping W check o (step B o s0)) as [s2 c] eqn:S. destruct c; [apply IH|]. intros H. injection H as <-.
  assert (L : In (s_u (step B o s0)) (s_evals (step B o s0))).
  { unfold Loop_model.step. destruct (transform _ _ _ _ _ _) as [s3 b]. cbn. auto. }
  unfold stepping in S. destruct (Nat.ltb _ _); [injection S as <-|injection S as <- _]; exact L.
Qed.
End Local.
