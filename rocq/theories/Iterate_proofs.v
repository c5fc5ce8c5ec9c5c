(** The iterations of solve from a point inside the bounds when every full Newton step stays inside
    them, for C87: the iterates are the Newton iterates. *)
From Coq Require Import List Arith Bool Reals Lra Lia.
From Verif Require Import Num Num_facts Loop_model Loop_spec Loop_proofs Backtrack_proofs Stay_proofs.
Import ListNotations.

Section Iterate.
Variable W : Type.
Variable fupdate : W -> uvec xreal -> W.
Variable ferror : W -> uvec xreal -> xreal.
Variable newton : W -> W * uvec xreal.
Variables (B : bounds xreal) (o : options xreal) (nx np nw : nat).
Hypothesis X1 : length (xlo B) = nx.
Hypothesis X2 : length (xhi B) = nx.
Hypothesis P1 : length (plo B) = np.
Hypothesis P2 : length (phi_ B) = np.

(** [I k x p y]: what is known of iterate k *)
Variable I : nat -> list R -> list R -> list R -> Prop.
Hypothesis IN : forall k x p y, I k x p y ->
  length x = nx /\ length p = np /\ length y = nw /\ all_inside (xlo B) (xhi B) x /\ all_inside (plo B) (phi_ B) p.
Hypothesis NW : forall k x p y w, I k x p y -> exists x' p' y' dx dp dy,
  I (S k) x' p' y' /\ snd (newton (fupdate w (fin x p y))) = fin dx dp dy /\
  length dx = nx /\ length dp = np /\ length dy = nw /\
  (forall i, i < nx -> (nth i x 0 + nth i dx 0 = nth i x' 0)%R) /\
  (forall i, i < np -> (nth i p 0 + nth i dp 0 = nth i p' 0)%R) /\
  (forall i, i < nw -> (nth i y 0 + nth i dy 0 = nth i y' 0)%R).

Notation loop := (loop W fupdate ferror newton None None).
Notation solve := (solve W fupdate ferror newton None None).

Definition reached (k : nat) (s : state xreal W) : Prop :=
  s_iters s = k /\ s_uo s = s_u s /\ (exists w, s_w s = fupdate w (s_u s)) /\ exists x p y, s_u s = fin x p y /\ I k x p y.
Definition arrived (k : nat) (s : state xreal W) : Prop :=
  s_iters s = k /\ s_err s = ferror (s_w s) (s_u s) /\ (exists w, s_w s = fupdate w (s_u s)) /\ exists x p y, s_u s = fin x p y /\ I k x p y.

Lemma step_reached k s : reached k s -> arrived (S k) (step W fupdate ferror newton None B o s).
Proof.
  intros (HI & HU & (w & HW) & x & p & y & E & H).
  destruct (IN _ _ _ _ H) as (L1 & L2 & L3 & I1 & I2).
  destruct (NW k x p y w H) as (x' & p' & y' & dx & dp & dy & H' & HN & D1 & D2 & D3 & A1 & A2 & A3).
  destruct (IN _ _ _ _ H') as (M1 & M2 & M3 & J1 & J2).
  unfold step, newton_apply. cbn [s_w s_uo s_u s_err s_iters s_hist s_evals s_iterates].
  rewrite HU, HW, E.
  destruct (newton (fupdate w (fin x p y))) as [w' du]. cbn [snd] in HN. subst du.
  set (du := fin dx dp dy).
  assert (A : UVec (map2 nadd (ux (fin x p y)) (ux du)) (map2 nadd (up (fin x p y)) (up du)) (map2 nadd (uw (fin x p y)) (uw du)) = fin x' p' y').
  { unfold du, fin. cbn [ux up uw]. rewrite (add_step x dx x'), (add_step p dp p'), (add_step y dy y') by (try congruence; rewrite ?L1, ?L2, ?L3; assumption). reflexivity. }
  rewrite A. unfold transform, with_u, update. cbn [s_w s_uo s_u s_err s_iters s_hist s_evals s_iterates].
  assert (BT : backtrack (o_fix o) B (fin x p y) (fin x' p' y') = fin x' p' y').
  { destruct (o_fix o).
    - cbn [backtrack]. apply clampu_id; auto; congruence.
    - apply backtrack_feasible; auto; congruence. }
  rewrite BT. unfold arrived. cbn [s_w s_uo s_u s_err s_iters s_hist s_evals s_iterates].
  split; [congruence|]. split; [reflexivity|]. split; [eexists; reflexivity|]. exists x', p', y'. auto.
Qed.

(** The final point is one of the iterates; success means that its error is below the tolerance;
    and no iterate before it has an error below the tolerance. *)
Lemma loop_iterates fuel k s s' : reached k s -> loop fuel B o s = Some s' -> k <= o_maxiters o ->
  exists j, k < j /\ arrived j s' /\ (j <= o_maxiters o -> nltb (s_err s') (o_tol o) = true).
Proof.
  revert k s. induction fuel as [|fuel IH]; intros k s HR; [discriminate|]. cbn [Loop_model.loop].
  pose proof (step_reached k s HR) as (A1 & A2 & A3 & A4). set (s1 := step W fupdate ferror newton None B o s) in *.
  pose proof (stepping_frame W None o s1) as G. destruct (stepping W None o s1) as [t c].
  destruct G as (G1 & G2 & G3 & G4 & _ & _ & _ & Gc & Gs).
  destruct c; intros E HK.
  - destruct (Gc eq_refl) as (C1 & C2 & _). destruct (IH (S k) t) as (j & J1 & J2); [|exact E|lia|exists j; split; [lia|exact J2]].
    unfold reached. rewrite C2, G1, G2, G4. auto.
  - injection E as <-. exists (S k). split; [lia|]. unfold arrived. rewrite G1, G2, G3, G4.
    split; [auto|]. intros L. destruct (Gs eq_refl) as [Q|[Q|(ck & Q & _)]]; [lia|exact Q|discriminate].
Qed.

Lemma loop_reaches n : forall fuel k s, reached k s -> n < fuel -> k + S n <= o_maxiters o ->
  (forall x p y w, I (k + S n) x p y -> nltb (ferror (fupdate w (fin x p y)) (fin x p y)) (o_tol o) = true) ->
  exists j s', loop fuel B o s = Some s' /\ k < j <= k + S n /\ arrived j s' /\ nltb (s_err s') (o_tol o) = true.
Proof.
  induction n as [|n IH]; intros [|fuel] k s HR HF HM HE; try lia; cbn [Loop_model.loop].
  all: pose proof (step_reached k s HR) as HA; set (s1 := step W fupdate ferror newton None B o s) in *.
  all: pose proof (stepping_frame W None o s1) as G; destruct (stepping W None o s1) as [t c].
  all: destruct G as (G1 & G2 & G3 & G4 & _ & _ & _ & Gc & Gs).
  all: destruct HA as (A1 & A2 & (w & A3) & x & p & y & A4 & A5).
  - destruct c.
    + destruct (Gc eq_refl) as (_ & _ & C). rewrite A2, A3, A4, HE in C by (replace (k + 1) with (S k) by lia; exact A5). discriminate.
    + exists (S k), t. split; [reflexivity|]. split; [lia|]. unfold arrived. rewrite G1, G2, G3, G4.
      split; [eauto 10|]. destruct (Gs eq_refl) as [Q|[Q|(ck & Q & _)]]; [lia|exact Q|discriminate].
  - destruct c.
    + destruct (Gc eq_refl) as (_ & C & _).
      destruct (IH fuel (S k) t) as (j & s' & J1 & J2 & J3); try lia.
      { unfold reached. rewrite C, G1, G2, G4. eauto 10. }
      { replace (S k + S n) with (k + S (S n)) by lia. exact HE. }
      exists j, s'. split; [exact J1|]. split; [lia|exact J3].
    + exists (S k), t. split; [reflexivity|]. split; [lia|]. unfold arrived. rewrite G1, G2, G3, G4.
      split; [eauto 10|]. destruct (Gs eq_refl) as [Q|[Q|(ck & Q & _)]]; [lia|exact Q|discriminate].
Qed.

Lemma init_reached w hist x p y : I 0 x p y -> reached 0 (initialize W fupdate ferror B w hist (fin x p y)).
Proof.
  intros H. destruct (IN _ _ _ _ H) as (L1 & L2 & L3 & I1 & I2).
  unfold reached, initialize. rewrite clampu_id by (try assumption; congruence).
  unfold update. cbn [s_w s_uo s_u s_err s_iters s_hist s_evals s_iterates]. eauto 10.
Qed.

Lemma solve_iterates fuel w hist x p y r s : I 0 x p y -> solve fuel B o w hist (fin x p y) = Some (r, s) ->
  1 <= r_iterations r /\ arrived (r_iterations r) s /\ (r_succeeded r = true -> nltb (s_err s) (o_tol o) = true).
Proof.
  intros H. unfold solve. destruct (loop fuel B o _) as [t|] eqn:E; [|discriminate]. intros Q. injection Q as <- <-. cbn [r_iterations r_succeeded].
  destruct (loop_iterates _ _ _ _ (init_reached w hist x p y H) E ltac:(lia)) as (j & J1 & J2 & J3).
  pose proof (proj1 J2) as EJ. rewrite EJ. split; [lia|]. split; [exact J2|]. intros L%Nat.leb_le. exact (J3 L).
Qed.
Lemma solve_reaches n fuel w hist x p y : I 0 x p y -> n < fuel -> S n <= o_maxiters o ->
  (forall x p y w, I (S n) x p y -> nltb (ferror (fupdate w (fin x p y)) (fin x p y)) (o_tol o) = true) ->
  exists r s, solve fuel B o w hist (fin x p y) = Some (r, s) /\ r_succeeded r = true /\ 1 <= r_iterations r <= S n /\ arrived (r_iterations r) s.
Proof.
  intros H HF HM HE. destruct (loop_reaches n fuel 0 _ (init_reached w hist x p y H) HF HM HE) as (j & s & E & HJ & HA & _).
  unfold solve. rewrite E. pose proof (proj1 HA) as EJ. eexists _, _. split; [reflexivity|]. cbn [r_succeeded r_iterations]. rewrite EJ.
  split; [apply Nat.leb_le; lia|]. split; [lia|exact HA].
Qed.
End Iterate.
