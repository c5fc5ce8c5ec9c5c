(** Proofs for C76: a calculation that starts where the Newton direction is zero. *)
From Coq Require Import List Arith Bool Reals Lra Lia.
From Verif Require Import Num Num_facts Loop_model Loop_spec Loop_proofs Backtrack_proofs.
Import ListNotations.

Lemma clampv_id lo hi x : length lo = length x -> length hi = length x -> all_inside lo hi x -> clampv (map XF x) lo hi = map XF x.
Proof.
  intros L1 L2 H. apply nth_ext with (d := XNaN) (d' := XNaN).
  - rewrite length_clampv; rewrite ?map_length; auto.
  - intros i Hi. rewrite nth_clampv by exact Hi.
    rewrite length_clampv in Hi by (rewrite map_length; auto). rewrite map_length in Hi.
    rewrite (nth_indep (map XF x) XNaN (XF 0%R)) by (rewrite map_length; exact Hi). rewrite map_nth.
    apply clip_inside. apply H. exact Hi.
Qed.
Lemma add_zeros (x : list R) : map2 nadd (map XF x) (map XF (repeat 0%R (length x))) = map XF x.
Proof.
  induction x as [|a x IH]; [reflexivity|]. unfold map2 in *. cbn in *. rewrite IH. f_equal. f_equal. lra.
Qed.

Section Stay.
Variable W : Type.
Variable fupdate : W -> uvec xreal -> W.
Variable ferror : W -> uvec xreal -> xreal.
Variable newton : W -> W * uvec xreal.
Variable check : option (W -> uvec xreal -> uvec xreal -> xreal -> nat -> bool).
Variables (B : bounds xreal) (o : options xreal) (x p y : list R).
Let u := fin x p y.
Hypothesis X1 : length (xlo B) = length x.
Hypothesis X2 : length (xhi B) = length x.
Hypothesis P1 : length (plo B) = length p.
Hypothesis P2 : length (phi_ B) = length p.
Hypothesis XI : all_inside (xlo B) (xhi B) x.
Hypothesis PI : all_inside (plo B) (phi_ B) p.
Hypothesis NW : forall w, snd (newton w) = fin (repeat 0%R (length x)) (repeat 0%R (length p)) (repeat 0%R (length y)).
Hypothesis OK : forall w, nltb (ferror (fupdate w u) u) (o_tol o) = true.
Hypothesis MX : 1 <= o_maxiters o.

Lemma clampu_id : clampu B u = u.
Proof. unfold clampu, u, fin. cbn [ux up uw]. rewrite !clampv_id by assumption. reflexivity. Qed.
Lemma backtrack_id : backtrack (o_fix o) B u u = u.
Proof.
  destruct (o_fix o); [exact clampu_id|].
  unfold u. apply backtrack_feasible; auto.
Qed.

Lemma solve_stays fuel w hist : exists s,
  solve W fupdate ferror newton None check (S fuel) B o w hist u = Some (Result true 1 nzero, s) /\ s_u s = u /\
  exists w', s_w s = fupdate w' u.
Proof.
  unfold solve. cbn [loop]. unfold initialize. rewrite clampu_id. unfold update. cbn [s_w s_uo s_u s_err s_iters s_hist s_evals s_iterates].
  unfold step. unfold newton_apply. cbn [s_w s_uo s_u s_err s_iters s_hist s_evals s_iterates].
  pose proof (NW (fupdate w u)) as HN. destruct (newton (fupdate w u)) as [w' du]. cbn [snd] in HN. subst du.
  set (du := fin (repeat 0%R (length x)) (repeat 0%R (length p)) (repeat 0%R (length y))).
  assert (A : UVec (map2 nadd (ux u) (ux du)) (map2 nadd (up u) (up du)) (map2 nadd (uw u) (uw du)) = u).
  { unfold u, du, fin. cbn [ux up uw]. rewrite !add_zeros. reflexivity. }
  rewrite A.
  unfold transform, with_u, update. cbn [s_w s_uo s_u s_err s_iters s_hist s_evals s_iterates].
  rewrite backtrack_id. unfold stepping. cbn [s_w s_uo s_u s_err s_iters s_hist s_evals s_iterates].
  destruct (Nat.ltb_spec (o_maxiters o) 1) as [H|_]; [lia|].
  unfold converged. cbn [s_w s_uo s_u s_err s_iters s_hist s_evals s_iterates]. rewrite OK. cbn [negb].
  eexists. split; [|split].
  - cbn [s_iters]. destruct (o_maxiters o); [lia|]. reflexivity.
  - reflexivity.
  - cbn [s_w]. eexists. reflexivity.
Qed.
End Stay.

Lemma add_step (x dx x' : list R) : length dx = length x -> length x' = length x ->
  (forall i, i < length x -> (nth i x 0 + nth i dx 0 = nth i x' 0)%R) -> map2 nadd (map XF x) (map XF dx) = map XF x'.
Proof.
  revert dx x'. induction x as [|a x IH]; intros [|b dx] [|c x'] L1 L2 H; try discriminate; [reflexivity|].
  unfold map2 in *. cbn in *. rewrite (IH dx x'); [|lia|lia|].
  - f_equal. f_equal. apply (H 0). lia.
  - intros i Hi. apply (H (S i)). lia.
Qed.

(** One iteration that lands on a point with a small error *)
Section OneStep.
Variable W : Type.
Variable fupdate : W -> uvec xreal -> W.
Variable ferror : W -> uvec xreal -> xreal.
Variable newton : W -> W * uvec xreal.
Variable check : option (W -> uvec xreal -> uvec xreal -> xreal -> nat -> bool).
Variables (B : bounds xreal) (o : options xreal) (x p y x' p' y' : list R).
Hypothesis X1 : length (xlo B) = length x.
Hypothesis X2 : length (xhi B) = length x.
Hypothesis P1 : length (plo B) = length p.
Hypothesis P2 : length (phi_ B) = length p.
Hypothesis LX : length x' = length x.
Hypothesis LP : length p' = length p.
Hypothesis LY : length y' = length y.
Hypothesis XI : all_inside (xlo B) (xhi B) x.
Hypothesis PI : all_inside (plo B) (phi_ B) p.
Hypothesis XI' : all_inside (xlo B) (xhi B) x'.
Hypothesis PI' : all_inside (plo B) (phi_ B) p'.
Hypothesis NW : forall w, exists dx dp dy, snd (newton (fupdate w (fin x p y))) = fin dx dp dy /\
  length dx = length x /\ length dp = length p /\ length dy = length y /\
  (forall i, i < length x -> (nth i x 0 + nth i dx 0 = nth i x' 0)%R) /\
  (forall i, i < length p -> (nth i p 0 + nth i dp 0 = nth i p' 0)%R) /\
  (forall i, i < length y -> (nth i y 0 + nth i dy 0 = nth i y' 0)%R).
Hypothesis OK : forall w, nltb (ferror (fupdate (fst (newton (fupdate w (fin x p y)))) (fin x' p' y')) (fin x' p' y')) (o_tol o) = true.
Hypothesis MX : 1 <= o_maxiters o.

Lemma solve_one_step fuel w hist : exists s,
  solve W fupdate ferror newton None check (S fuel) B o w hist (fin x p y) = Some (Result true 1 nzero, s) /\ s_u s = fin x' p' y' /\
  exists w', s_w s = fupdate w' (fin x' p' y').
Proof.
  unfold solve. cbn [loop]. unfold initialize. rewrite clampu_id by assumption. unfold update. cbn [s_w s_uo s_u s_err s_iters s_hist s_evals s_iterates].
  unfold step. unfold newton_apply. cbn [s_w s_uo s_u s_err s_iters s_hist s_evals s_iterates].
  destruct (NW w) as (dx & dp & dy & HN & L1 & L2 & L3 & D1 & D2 & D3).
  pose proof (OK w) as OKw.
  destruct (newton (fupdate w (fin x p y))) as [w' du]. cbn [snd] in HN. cbn [fst] in OKw. subst du.
  set (du := fin dx dp dy).
  assert (A : UVec (map2 nadd (ux (fin x p y)) (ux du)) (map2 nadd (up (fin x p y)) (up du)) (map2 nadd (uw (fin x p y)) (uw du)) = fin x' p' y').
  { unfold du, fin. cbn [ux up uw]. rewrite (add_step x dx x'), (add_step p dp p'), (add_step y dy y') by assumption. reflexivity. }
  rewrite A.
  unfold transform, with_u, update. cbn [s_w s_uo s_u s_err s_iters s_hist s_evals s_iterates].
  assert (BT : backtrack (o_fix o) B (fin x p y) (fin x' p' y') = fin x' p' y').
  { destruct (o_fix o).
    - cbn [backtrack]. apply clampu_id; auto; congruence.
    - apply backtrack_feasible; auto; congruence. }
  rewrite BT. unfold stepping. cbn [s_w s_uo s_u s_err s_iters s_hist s_evals s_iterates].
  destruct (Nat.ltb_spec (o_maxiters o) 1) as [H|_]; [lia|].
  unfold converged. cbn [s_w s_uo s_u s_err s_iters s_hist s_evals s_iterates]. rewrite OKw. cbn [negb].
  eexists. split; [|split].
  - cbn [s_iters]. destruct (o_maxiters o); [lia|]. reflexivity.
  - reflexivity.
  - cbn [s_w]. eexists. reflexivity.
Qed.
End OneStep.
