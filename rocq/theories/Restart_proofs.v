(** Calculations whose iterates all have a property after the first step. *)
From Coq Require Import List Arith Bool Reals Lra Lia.
From Verif Require Import Num Num_facts Loop_model Loop_spec Loop_proofs Backtrack_proofs Stay_proofs.
Import ListNotations.

(** Calculations whose iterates all have a property after the first step. *)

Section Trap.
Variable W : Type.
Variable fupdate : W -> uvec xreal -> W.
Variable ferror : W -> uvec xreal -> xreal.
Variable newton : W -> W * uvec xreal.
Variables (B : bounds xreal) (o : options xreal).
Variables I J : list R -> list R -> list R -> Prop.
Hypothesis JI : forall x p y, J x p y -> I x p y.
Hypothesis IN : forall x p y, I x p y -> clampu B (fin x p y) = fin x p y.
Hypothesis NW : forall x p y w, I x p y -> exists dx dp dy x' p' y',
  snd (newton (fupdate w (fin x p y))) = fin dx dp dy /\ J x' p' y' /\
  backtrack (o_fix o) B (fin x p y) (UVec (map2 nadd (map XF x) (map XF dx)) (map2 nadd (map XF p) (map XF dp)) (map2 nadd (map XF y) (map XF dy))) = fin x' p' y'.

Notation loop := (loop W fupdate ferror newton None None).
Notation solve := (solve W fupdate ferror newton None None).
Definition within_ (Q : list R -> list R -> list R -> Prop) (s : state xreal W) : Prop :=
  (exists w, s_w s = fupdate w (s_u s)) /\ exists x p y, s_u s = fin x p y /\ Q x p y.

Lemma step_moves s : within_ I s -> s_uo s = s_u s -> within_ J (step W fupdate ferror newton None B o s).
Proof.
  intros ((w & HW) & x & p & y & E & H) HU.
  destruct (NW x p y w H) as (dx & dp & dy & x' & p' & y' & HN & H' & BT).
  unfold step, newton_apply. cbn [s_w s_uo s_u s_err s_iters s_hist s_evals s_iterates].
  rewrite HU, HW, E.
  destruct (newton (fupdate w (fin x p y))) as [w' du]. cbn [snd] in HN. subst du.
  unfold transform, with_u, update. cbn [s_w s_uo s_u s_err s_iters s_hist s_evals s_iterates].
  change (backtrack (o_fix o) B (fin x p y) (UVec (map2 nadd (ux (fin x p y)) (ux (fin dx dp dy))) (map2 nadd (up (fin x p y)) (up (fin dx dp dy)))
    (map2 nadd (uw (fin x p y)) (uw (fin dx dp dy)))) = fin x' p' y') in BT. rewrite BT.
  unfold within_. cbn [s_w s_uo s_u s_err s_iters s_hist s_evals s_iterates].
  split; [eexists; reflexivity|]. exists x', p', y'. auto.
Qed.
Lemma loop_moves fuel s s' : within_ I s -> s_uo s = s_u s -> loop fuel B o s = Some s' -> within_ J s'.
Proof.
  revert s. induction fuel as [|fuel IH]; intros s HT HU; [discriminate|]. cbn [Loop_model.loop].
  pose proof (step_moves s HT HU) as (A1 & A2). set (s1 := step W fupdate ferror newton None B o s) in *.
  pose proof (stepping_frame W None o s1) as G. destruct (stepping W None o s1) as [t c].
  destruct G as (G1 & G2 & G3 & G4 & _ & _ & _ & Gc & Gs).
  assert (H : within_ J t) by (unfold within_; rewrite G1, G2; auto).
  destruct c; intros E.
  - destruct (Gc eq_refl) as (C1 & C2 & _). apply (IH t); try congruence.
    destruct H as (H1 & x & p & y & H2 & H3). split; [exact H1|]. exists x, p, y. auto.
  - injection E as <-. assumption.
Qed.
Lemma solve_moves fuel w hist x p y r s : I x p y -> solve fuel B o w hist (fin x p y) = Some (r, s) ->
  exists x' p' y', s_u s = fin x' p' y' /\ J x' p' y'.
Proof.
  intros H. unfold solve. destruct (loop fuel B o _) as [t|] eqn:E; [|discriminate]. intros Q. injection Q as <- <-.
  apply loop_moves in E; [exact (proj2 E)| |reflexivity].
  unfold initialize, within_. rewrite (IN _ _ _ H). unfold update. cbn [s_w s_uo s_u s_err s_iters s_hist s_evals s_iterates].
  split; [eexists; reflexivity|]. eauto 10.
Qed.
End Trap.
