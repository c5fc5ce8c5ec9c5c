(** For C92: a calculation whose steps never leave a set of points. *)
From Coq Require Import List Arith Bool Reals Lra Lia.
From Verif Require Import Num Num_facts Loop_model Loop_spec Loop_proofs Backtrack_proofs Stay_proofs.
Import ListNotations.

(** The full step keeps variables on the bounds that it violates and moves the others, when these stay inside. *)
Definition held_back (lo hi : list xreal) (xo xn x : list R) : Prop := length xn = length xo /\ length x = length xo /\ forall i, i < length xo ->
  (inside (nth i lo XNaN) (nth i hi XNaN) (nth i xn 0%R) /\ nth i x 0%R = nth i xn 0%R) \/
  (blocked (nth i lo XNaN) (nth i hi XNaN) (nth i xo 0%R) (nth i xn 0%R) /\ nth i x 0%R = nth i xo 0%R).
Lemma clampv_held lo hi xo xn x : length lo = length xo -> length hi = length xo -> all_inside lo hi xo -> held_back lo hi xo xn x ->
  clampv (map XF xn) lo hi = map XF x.
Proof.
  intros L1 L2 HI (L3 & L4 & H). apply nth_ext with (d := XNaN) (d' := XF 0%R).
  - rewrite length_clampv; rewrite ?map_length; congruence.
  - intros i Hi. rewrite nth_clampv by exact Hi. rewrite map_nth.
    rewrite length_clampv in Hi by (rewrite map_length; congruence). rewrite map_length, L3 in Hi.
    rewrite (nth_indep (map XF xn) XNaN (XF 0%R)) by (rewrite map_length; congruence). rewrite map_nth.
    destruct (H i Hi) as [[A ->]|[A ->]]; [apply clip_inside; exact A|].
    replace (nth i xn 0%R) with (lin 1 (nth i xo 0%R) (nth i xn 0%R)) by (unfold lin; ring).
    apply clip_blocked; [lra|apply HI; exact Hi|exact A].
Qed.
Lemma held_no_overshoot lo hi xo xn x : held_back lo hi xo xn x -> ~ overshoots 1 xo xn lo hi.
Proof.
  intros (_ & _ & H) (i & Hi & NB & NI). destruct (H i Hi) as [[A _]|[A _]]; [|exact (NB A)].
  apply NI. replace (lin 1 (nth i xo 0%R) (nth i xn 0%R)) with (nth i xn 0%R) by (unfold lin; ring). exact A.
Qed.
Lemma moved_held lo hi xo xn x r : all_inside lo hi xo -> held_back lo hi xo xn x -> moved 1 xo xn lo hi r -> r = map XF x.
Proof.
  intros HI (L3 & L4 & H) (HL & M). apply nth_ext with (d := XNaN) (d' := XF 0%R); [rewrite map_length; congruence|].
  intros i Hi. rewrite map_nth. rewrite HL in Hi. destruct (M i Hi) as (M1 & M2).
  assert (L1 : lin 1 (nth i xo 0%R) (nth i xn 0%R) = nth i xn 0%R) by (unfold lin; ring). rewrite L1 in M2.
  destruct (H i Hi) as [[A ->]|[A ->]]; [apply M2|apply M1; exact A].
  apply inside_iff in A. destruct A as [A1 A2]. intros [[E L]|[E L]]; rewrite E in *; lra.
Qed.
Lemma backtrack_held B f xo xn x po pn p wo w : length (xlo B) = length xo -> length (xhi B) = length xo -> length (plo B) = length po -> length (phi_ B) = length po ->
  length w = length wo -> all_inside (xlo B) (xhi B) xo -> all_inside (plo B) (phi_ B) po ->
  held_back (xlo B) (xhi B) xo xn x -> held_back (plo B) (phi_ B) po pn p -> backtrack f B (fin xo po wo) (fin xn pn w) = fin x p w.
Proof.
  intros X1 X2 P1 P2 LW XI PI XH PH. destruct f.
  - unfold backtrack, clampu, fin. cbn [ux up uw]. rewrite (clampv_held _ _ xo xn x), (clampv_held _ _ po pn p) by assumption. reflexivity.
  - destruct (backtrack_correct xo xn po pn wo w B) as (b & H); try assumption; try (apply XH); try (apply PH).
    cbn zeta in H. destruct H as (Hb & HX & HP & HL & HW & HM).
    assert (E : b = 1%R).
    { destruct HM as [M|M]; [exact M|]. destruct (Rle_lt_or_eq_dec b 1 (proj2 Hb)) as [L|L]; [|exact L]. exfalso.
      destruct (M 1%R L) as [O|O]; revert O; eapply held_no_overshoot; eassumption. }
    subst b. apply moved_held with (x := x) in HX; [|assumption|assumption]. apply moved_held with (x := p) in HP; [|assumption|assumption].
    destruct (backtrack false B (fin xo po wo) (fin xn pn w)) as [x' p' w'] eqn:EU. cbn [ux up uw] in *. subst x' p'.
    unfold fin. f_equal. apply nth_ext with (d := XNaN) (d' := XF 0%R); [rewrite map_length; lia|].
    intros i Hi. rewrite map_nth, HW by lia. f_equal. unfold lin. ring.
Qed.

Section Trap.
Variable W : Type.
Variable fupdate : W -> uvec xreal -> W.
Variable ferror : W -> uvec xreal -> xreal.
Variable newton : W -> W * uvec xreal.
Variables (B : bounds xreal) (o : options xreal).
Variable I : list R -> list R -> list R -> Prop.
Hypothesis IN : forall x p y, I x p y -> clampu B (fin x p y) = fin x p y.
Hypothesis NW : forall x p y w, I x p y -> exists dx dp dy x' p' y',
  snd (newton (fupdate w (fin x p y))) = fin dx dp dy /\ I x' p' y' /\
  backtrack (o_fix o) B (fin x p y) (UVec (map2 nadd (map XF x) (map XF dx)) (map2 nadd (map XF p) (map XF dp)) (map2 nadd (map XF y) (map XF dy))) = fin x' p' y'.

Notation loop := (loop W fupdate ferror newton None None).
Notation solve := (solve W fupdate ferror newton None None).
Definition trapped (s : state xreal W) : Prop :=
  (exists w, s_w s = fupdate w (s_u s)) /\ exists x p y, s_u s = fin x p y /\ I x p y.

Lemma step_trapped s : trapped s -> s_uo s = s_u s -> trapped (step W fupdate ferror newton None B o s).
Proof.
  intros ((w & HW) & x & p & y & E & H) HU.
  destruct (NW x p y w H) as (dx & dp & dy & x' & p' & y' & HN & H' & BT).
  unfold step, newton_apply. cbn [s_w s_uo s_u s_err s_iters s_hist s_evals s_iterates].
  rewrite HU, HW, E.
  destruct (newton (fupdate w (fin x p y))) as [w' du]. cbn [snd] in HN. subst du.
  unfold transform, with_u, update. cbn [s_w s_uo s_u s_err s_iters s_hist s_evals s_iterates].
  change (backtrack (o_fix o) B (fin x p y) (UVec (map2 nadd (ux (fin x p y)) (ux (fin dx dp dy))) (map2 nadd (up (fin x p y)) (up (fin dx dp dy)))
    (map2 nadd (uw (fin x p y)) (uw (fin dx dp dy)))) = fin x' p' y') in BT. rewrite BT.
  unfold trapped. cbn [s_w s_uo s_u s_err s_iters s_hist s_evals s_iterates].
  split; [eexists; reflexivity|]. exists x', p', y'. auto.
Qed.
Lemma loop_trapped fuel s s' : trapped s -> s_uo s = s_u s -> loop fuel B o s = Some s' -> trapped s'.
Proof.
  revert s. induction fuel as [|fuel IH]; intros s HT HU; [discriminate|]. cbn [Loop_model.loop].
  pose proof (step_trapped s HT HU) as (A1 & A2). set (s1 := step W fupdate ferror newton None B o s) in *.
  pose proof (stepping_frame W None o s1) as G. destruct (stepping W None o s1) as [t c].
  destruct G as (G1 & G2 & G3 & G4 & _ & _ & _ & Gc & Gs).
  assert (trapped t) by (unfold trapped; rewrite G1, G2; auto).
  destruct c; intros E.
  - destruct (Gc eq_refl) as (C1 & C2 & _). apply (IH t); congruence.
  - injection E as <-. assumption.
Qed.
Lemma solve_trapped fuel w hist x p y r s : I x p y -> solve fuel B o w hist (fin x p y) = Some (r, s) ->
  exists x' p' y', s_u s = fin x' p' y' /\ I x' p' y'.
Proof.
  intros H. unfold solve. destruct (loop fuel B o _) as [t|] eqn:E; [|discriminate]. intros Q. injection Q as <- <-.
  apply loop_trapped in E; [exact (proj2 E)| |reflexivity].
  unfold initialize, trapped. rewrite (IN _ _ _ H). unfold update. cbn [s_w s_uo s_u s_err s_iters s_hist s_evals s_iterates].
  split; [eexists; reflexivity|]. eauto 10.
Qed.
End Trap.
