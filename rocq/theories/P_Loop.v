(** Property theorems C47-C55, C69 and C77.  W, fupdate, ferror, newton, phi and check are
    arbitrary: any user functions, any residual function and any linear solver. *)
From Coq Require Import List Arith Bool ZArith Reals Lra Lia.
From Coq Require Import Floats.SpecFloat.
From Verif Require Import Num Num_facts Minimize_model Loop_model Loop_spec Loop_proofs Backtrack_proofs.
Import ListNotations.

(** ** C47.  Every number system with a total order on numbers that are not NaN, in
    particular binary64 (instance NumTot_b64): every entry of x and p of every iterate is
    within its bounds or NaN. *)
Theorem C47_bounds : forall (T : Type) (N : Num T) (NT : NumTot T) (W : Type) fupdate ferror newton phi check
    (nx np : nat) (B : bounds T) o fuel (w : W) hist u r s,
  good_bounds nx np B -> solve W fupdate ferror newton phi check fuel B o w hist u = Some (r, s) ->
  Forall (inbox B) (s_iterates s) /\ inbox B (s_u s).
Proof.
  intros T N NT W fupdate ferror newton phi check nx np B o fuel w hist u r s G. unfold solve.
  destruct (loop _ _ _ _ _ _ _ _ _ _) as [s'|] eqn:E; [|discriminate]. intros H. injection H as _ <-.
  assert (F : Forall (inbox B) (s_iterates s')).
  { eapply loop_inbox; eauto. cbn. constructor; [|constructor]. apply clampu_inbox with nx np. exact G. }
  split; [exact F|].
  apply loop_final in E; [|cbn; lia|reflexivity|discriminate].
  destruct E as (_ & _ & _ & older & errs & E & _). rewrite E in F. inversion F. assumption.
Qed.
Print Assumptions C47_bounds.

(** No iterate loses or gains a component. *)
Theorem C47_sizes : forall (T : Type) (N : Num T) (W : Type) fupdate ferror newton phi check
    (nx np nw : nat) (B : bounds T) o fuel (w : W) hist u r s,
  good_bounds nx np B -> sized nx np nw u -> (forall w, sized nx np nw (snd (newton w))) ->
  (forall ph w xo x, phi = Some ph -> length x = nx -> length (snd (ph w xo x)) = nx) ->
  solve W fupdate ferror newton phi check fuel B o w hist u = Some (r, s) ->
  Forall (sized nx np nw) (s_iterates s).
Proof.
  intros T N W fupdate ferror newton phi check nx np nw B o fuel w hist u r s G SZ HN HP. unfold solve.
  destruct (loop _ _ _ _ _ _ _ _ _ _) as [s'|] eqn:E; [|discriminate]. intros H. injection H as _ <-.
  eapply loop_sized; eauto; cbn; [|constructor; [|constructor]]; apply clampu_sized; assumption.
Qed.
Print Assumptions C47_sizes.

(** ** C69.  Without a transformation, f, h, v are evaluated within the bounds only ... *)
Theorem C69_evaluations_partial : forall (T : Type) (N : Num T) (NT : NumTot T) (W : Type) fupdate ferror newton check
    (nx np : nat) (B : bounds T) o fuel (w : W) hist u r s,
  good_bounds nx np B -> solve W fupdate ferror newton None check fuel B o w hist u = Some (r, s) ->
  Forall (inbox B) (s_evals s).
Proof.
  intros T N NT W fupdate ferror newton check nx np B o fuel w hist u r s G. unfold solve.
  destruct (loop _ _ _ _ _ _ _ _ _ _) as [s'|] eqn:E; [|discriminate]. intros H. injection H as _ <-.
  eapply loop_evals; eauto. cbn. constructor; [|constructor]. apply clampu_inbox with nx np. exact G.
Qed.
Print Assumptions C69_evaluations_partial.

(** A run in binary64: one variable in [0,1]; the world is the list of errors to come (its
    head is the current error); the Newton direction is always [d]. *)
Definition z64 : spec_float := nofZ 0.
Definition B1 : bounds spec_float := Bounds [nofZ 0] [nofZ 1] [] [].
Definition u1 : uvec spec_float := UVec [z64] [] [].
Definition toy_update (w : list spec_float) (u : uvec spec_float) := tl w.
Definition toy_error (w : list spec_float) (u : uvec spec_float) := hd z64 w.
Definition toy_newton (d : spec_float) (w : list spec_float) := (w, UVec [d] [] []).
Definition toy_solve d phi maxiters (errs : list spec_float) hist :=
  solve (list spec_float) toy_update toy_error (toy_newton d) phi None 100 B1 (Options maxiters (nofZ 1) false) (z64 :: errs) hist u1.
Definition reject := Some (fun (w : list spec_float) (xo x : list spec_float) => (w, false, x)).

Lemma B1_good : good_bounds 1 0 B1.
Proof. repeat split; repeat constructor. Qed.

Example C47_case : exists r s, toy_solve (nofZ 10) None 5 [nofZ 3; nofZ 2; nofZ 2; nofZ 0] [] = Some (r, s) /\
  r = Result true 3 z64 /\ map ux (s_iterates s) = [[nofZ 1]; [nofZ 1]; [nofZ 1]; [nofZ 0]].
Proof. eexists; eexists; split; [vm_compute; reflexivity|]. split; reflexivity. Qed.

(** ... but after a transformation that is rejected they are evaluated at the raw Newton step. *)
Theorem C69_evaluations_refuted : exists r s, toy_solve (nofZ 10) reject 5 [nofZ 3; nofZ 2; nofZ 0] [] = Some (r, s) /\
  exists u, In u (s_evals s) /\ ~ inbox B1 u.
Proof.
  eexists; eexists; split; [vm_compute; reflexivity|].
  exists (UVec [nofZ 10] [] []). split; [right; left; reflexivity|].
  intros [H _]. specialize (H 0%nat). cbn in H. destruct H as [H|[_ H]]; [lia|discriminate|discriminate].
Qed.
Print Assumptions C69_evaluations_refuted.

(** ** C48.  The run ends after at least one and at most maxiters + 1 iterations ... *)
Theorem C48_terminates_partial : forall (T : Type) (N : Num T) (W : Type) fupdate ferror newton phi check
    (B : bounds T) o fuel (w : W) hist u, (o_maxiters o < fuel)%nat ->
  exists r s, solve W fupdate ferror newton phi check fuel B o w hist u = Some (r, s) /\
    (1 <= r_iterations r <= o_maxiters o + 1)%nat /\ length (s_iterates s) = S (r_iterations r).
Proof.
  intros T N W fupdate ferror newton phi check B o fuel w hist u Hf. unfold solve.
  destruct (loop_terminates W fupdate ferror newton phi check fuel B o (initialize W fupdate ferror B w hist u)) as (s & E); [cbn; lia|].
  rewrite E. eexists; eexists; split; [reflexivity|]. cbn [r_iterations].
  apply loop_final in E; [|cbn; lia|reflexivity|discriminate].
  destruct E as (E1 & _ & _ & older & errs & E2 & E3 & _). cbn in E1, E3.
  split; [lia|]. rewrite E2. cbn. lia.
Qed.
Print Assumptions C48_terminates_partial.

(** ... and maxiters + 1 does occur. *)
Theorem C48_terminates_refuted : forall maxiters : nat, exists r s,
  solve unit (fun w _ => w) (fun _ _ => nofZ 2 : spec_float) (fun w => (w, u1)) None None (S maxiters) B1
    (Options maxiters (nofZ 1) false) tt [] u1 = Some (r, s) /\ r_iterations r = S maxiters.
Proof.
  intros m.
  destruct (C48_terminates_partial spec_float _ unit (fun w _ => w) (fun _ _ => nofZ 2 : spec_float) (fun w => (w, u1)) None None B1
    (Options m (nofZ 1) false) (S m) tt [] u1 ltac:(cbn; lia)) as (r & s & E & L & _).
  exists r, s. split; [exact E|]. revert E L. unfold solve.
  destruct (loop _ _ _ _ _ _ _ _ _ _) as [s'|] eqn:E; [|discriminate]. intros H. injection H as <- <-. cbn [r_iterations]. intros L.
  apply loop_final in E; [|cbn; lia|reflexivity|discriminate].
  destruct E as (_ & _ & E1 & older & errs & _ & _ & _ & _ & _ & E).
  destruct (Nat.le_gt_cases (s_iters s') m) as [M|M]; [|cbn in L; lia]. exfalso.
  destruct (E M) as [H|(ck & H & _)]; [|discriminate]. rewrite E1 in H. discriminate.
Qed.
Print Assumptions C48_terminates_refuted.

(** ** C49.  The convergence criterion at the returned point, whose error is the last
    residual error. *)
Definition criterion {T} {N : Num T} {W} (check : option (W -> uvec T -> uvec T -> T -> nat -> bool)) (tol : T) (s : state T W) : Prop :=
  nltb (s_err s) tol = true \/
  exists c, check = Some c /\ c (s_w s) (nth 1 (s_iterates s) (s_u s)) (s_u s) (s_err s) (s_iters s) = true.

Theorem C49_success_sound : forall (T : Type) (N : Num T) (W : Type) fupdate ferror newton phi check
    (B : bounds T) o fuel (w : W) hist u r s,
  solve W fupdate ferror newton phi check fuel B o w hist u = Some (r, s) ->
  (exists w', s_w s = fupdate w' (s_u s)) /\ s_err s = ferror (s_w s) (s_u s) /\
  (r_succeeded r = true -> criterion check (o_tol o) s).
Proof.
  intros T N W fupdate ferror newton phi check B o fuel w hist u r s. unfold solve.
  destruct (loop _ _ _ _ _ _ _ _ _ _) as [s'|] eqn:E; [|discriminate]. intros H. injection H as <- <-. cbn [r_succeeded].
  apply loop_final in E; [|cbn; lia|reflexivity|discriminate].
  destruct E as (_ & E1 & E2 & older & errs & E3 & _ & _ & _ & _ & E).
  split; [exact E1|]. split; [exact E2|]. intros S. apply Nat.leb_le in S.
  destruct (E S) as [H|(c & H1 & H2)]; [left; exact H|right]. exists c. split; [exact H1|].
  rewrite E3. cbn. destruct older; exact H2.
Qed.
Print Assumptions C49_success_sound.

(** Failure means that maxiters + 1 iterations were done and the errors after the first
    maxiters of them were all too large ... *)
Theorem C49_failure_partial : forall (T : Type) (N : Num T) (W : Type) fupdate ferror newton phi check
    (B : bounds T) o fuel (w : W) hist u r s,
  solve W fupdate ferror newton phi check fuel B o w hist u = Some (r, s) -> r_succeeded r = false ->
  r_iterations r = S (o_maxiters o) /\
  exists errs, s_hist s = hist ++ errs ++ [s_err s] /\ length errs = o_maxiters o /\
    Forall (fun e => nltb e (o_tol o) = false) errs.
Proof.
  intros T N W fupdate ferror newton phi check B o fuel w hist u r s. unfold solve.
  destruct (loop _ _ _ _ _ _ _ _ _ _) as [s'|] eqn:E; [|discriminate]. intros H. injection H as <- <-. cbn [r_succeeded r_iterations].
  apply loop_final in E; [|cbn; lia|reflexivity|discriminate]. intros S. apply Nat.leb_gt in S.
  destruct E as (E0 & _ & _ & older & errs & _ & _ & E4 & E5 & E6 & _). cbn in E0, E4, E5.
  split; [lia|]. exists errs. split; [exact E4|]. split; [lia|exact E6].
Qed.
Print Assumptions C49_failure_partial.

(** ... but the last one may well have converged. *)
Theorem C49_failure_refuted : exists r s, toy_solve z64 None 2 [nofZ 3; nofZ 2; nofZ 2; nofZ 0] [] = Some (r, s) /\
  r_succeeded r = false /\ criterion (W := list spec_float) None (nofZ 1) s.
Proof. eexists; eexists; split; [vm_compute; reflexivity|]. split; [reflexivity|left; reflexivity]. Qed.
Print Assumptions C49_failure_refuted.

(** ** C73.  The last line of the output shows the returned point when the calculation
    succeeded ... *)
Theorem C73_last_line_partial : forall (T : Type) (N : Num T) (W : Type) fupdate ferror newton phi check
    (B : bounds T) o fuel (w : W) hist u r s,
  solve W fupdate ferror newton phi check fuel B o w hist u = Some (r, s) -> r_succeeded r = true -> shown_last s = s_u s.
Proof.
  intros T N W fupdate ferror newton phi check B o fuel w hist u r s. unfold solve.
  destruct (loop _ _ _ _ _ _ _ _ _ _) as [s'|] eqn:E; [|discriminate]. intros H. injection H as <- <-. cbn [r_succeeded].
  intros L. apply Nat.leb_le in L. exact (loop_uo _ _ _ _ _ _ _ _ _ _ _ E L).
Qed.
Print Assumptions C73_last_line_partial.
Example C73_case : exists r s, toy_solve (nofZ 10) None 5 [nofZ 3; nofZ 2; nofZ 2; nofZ 0] [] = Some (r, s) /\ r_succeeded r = true.
Proof. eexists; eexists; split; [vm_compute; reflexivity|reflexivity]. Qed.

(** ... but the point of the iteration before when it failed. *)
Theorem C73_last_line_refuted : exists r s, toy_solve (nofZ 10) None 0 [nofZ 3; nofZ 2] [] = Some (r, s) /\
  ux (shown_last s) = [nofZ 0] /\ ux (s_u s) = [nofZ 1].
Proof. eexists; eexists; split; [vm_compute; reflexivity|]. split; reflexivity. Qed.
Print Assumptions C73_last_line_refuted.

(** ** C50 *)
Theorem C50_transform : forall (T : Type) (N : Num T) (NT : NumTot T) (W : Type) fupdate ferror ph
    (nx np : nat) (B : bounds T) (s s' : state T W) ok,
  good_bounds nx np B -> transform W fupdate ferror (Some ph) B s = (s', ok) ->
  s_err s' = ferror (s_w s') (s_u s') /\ (exists w, s_w s' = fupdate w (s_u s')) /\
  (ok = false -> s_u s' = s_u s) /\
  (ok = true -> nltb (s_err s) (s_err s') = false /\ within (xlo B) (ux (s_u s')) (xhi B) /\
     up (s_u s') = up (s_u s) /\ uw (s_u s') = uw (s_u s)).
Proof.
  intros T N NT W fupdate ferror ph nx np B s s' ok G. unfold transform.
  destruct (ph _ _ _) as [[w out] x]. destruct out; cbn [negb].
  - unfold ngtb. cbn. destruct (nltb (s_err s) _) eqn:E; intros H; injection H as <- <-; cbn.
    + repeat split; eauto; discriminate.
    + repeat split; eauto; try discriminate. apply clampv_within. apply G.
  - intros H; injection H as <- <-; cbn. repeat split; eauto; discriminate.
Qed.
Print Assumptions C50_transform.

(** One that moves x to 7 (clamped to 1) is accepted when the error falls to 0 and undone
    when it rises to 2. *)
Example C50_case : let run e := transform (list spec_float) toy_update toy_error (Some (fun w xo x => (w, true, [nofZ 7]))) B1
    (State [z64; e] u1 u1 (nofZ 1) 0 [] [] []) in
  ux (s_u (fst (run (nofZ 0)))) = [nofZ 1] /\ snd (run (nofZ 0)) = true /\
  s_u (fst (run (nofZ 2))) = u1 /\ snd (run (nofZ 2)) = false.
Proof. vm_compute. repeat split. Qed.

(** Without a transformation function nothing happens. *)
Theorem C50_no_transform : forall (T : Type) (N : Num T) (W : Type) fupdate ferror (B : bounds T) (s : state T W),
  transform W fupdate ferror None B s = (s, false).
Proof. reflexivity. Qed.
Print Assumptions C50_no_transform.

(** "Not larger" in the code is the negation of ">": a transformation whose error is NaN is
    accepted. *)
Theorem C50_nan_refuted : let s : state spec_float (list spec_float) := State [z64; S754_nan] u1 u1 (nofZ 1) 0 [] [] [] in
  let '(s', ok) := transform _ toy_update toy_error (Some (fun w xo x => (w, true, x))) B1 s in
  ok = true /\ nleb (s_err s') (s_err s) = false.
Proof. vm_compute. split; reflexivity. Qed.
Print Assumptions C50_nan_refuted.

(** ** C51 *)
Theorem C51_backtrack : forall (xo x po p wo w : list R) (B : bounds xreal),
  length x = length xo -> length (xlo B) = length xo -> length (xhi B) = length xo ->
  length p = length po -> length (plo B) = length po -> length (phi_ B) = length po -> length w = length wo ->
  all_inside (xlo B) (xhi B) xo -> all_inside (plo B) (phi_ B) po ->
  exists b, let u' := backtrack false B (fin xo po wo) (fin x p w) in
    (0 < b <= 1)%R /\ moved b xo x (xlo B) (xhi B) (ux u') /\ moved b po p (plo B) (phi_ B) (up u') /\
    length (uw u') = length wo /\ (forall i, (i < length wo)%nat -> nth i (uw u') XNaN = XF (lin b (nth i wo 0%R) (nth i w 0%R))) /\
    (b = 1%R \/ forall b', (b < b')%R -> overshoots b' xo x (xlo B) (xhi B) \/ overshoots b' po p (plo B) (phi_ B)).
Proof. exact backtrack_correct. Qed.
Print Assumptions C51_backtrack.

Theorem C51_feasible_unchanged : forall (xo x po p wo w : list R) (B : bounds xreal),
  length x = length xo -> length (xlo B) = length xo -> length (xhi B) = length xo ->
  length p = length po -> length (plo B) = length po -> length (phi_ B) = length po -> length w = length wo ->
  all_inside (xlo B) (xhi B) xo -> all_inside (plo B) (phi_ B) po ->
  all_inside (xlo B) (xhi B) x -> all_inside (plo B) (phi_ B) p ->
  backtrack false B (fin xo po wo) (fin x p w) = fin x p w.
Proof. exact backtrack_feasible. Qed.
Print Assumptions C51_feasible_unchanged.

(** x0 moves from 0 towards 4 with upper bound 1, x1 sits on its lower bound 0 and is pushed
    below it, x2 has no bounds. *)
Example C51_case : all_inside [XF 0; XF 0; XNInf] [XF 1; XF 1; XPInf] [0; 0; 7]%R /\
  blocked (XF 0) (XF 1) 0 (-1) /\ ~ blocked (XF 0) (XF 1) 0 4.
Proof.
  split; [|split].
  - intros i Hi. apply inside_iff. destruct i as [|[|[|i]]]; cbn in *; try lia; split; try lra; exact I.
  - right. split; [reflexivity|lra].
  - intros [[E _]|[_ E]]; [injection E; lra|lra].
Qed.

(** ** C52.  The residual error is taken as a function of the point. *)
Theorem C52_linesearch : forall (err : uvec R -> R) fuel tol maxiters nx np nw (uo u u' : uvec R) e',
  (0 < tol)%R -> sized nx np nw uo -> sized nx np nw u -> linesearch fuel err tol maxiters uo u = Some (u', e') ->
  e' = err u' /\ (err u' <= err u)%R /\ exists alpha, (0 <= alpha <= 1)%R /\ u' = mix alpha uo u.
Proof. exact linesearch_correct. Qed.
Print Assumptions C52_linesearch.

Theorem C52_stays_in_bounds : forall alpha o v lo hi : R, (0 <= alpha <= 1)%R ->
  (lo <= o <= hi)%R -> (lo <= v <= hi)%R -> (lo <= mix1 alpha o v <= hi)%R.
Proof. exact mix1_between. Qed.
Print Assumptions C52_stays_in_bounds.

(** such line searches end: C14 *)
Example C52_case : exists r, linesearch 30 (fun u => nabs (hd z64 (ux u))) (ndiv (nofZ 1) (nofZ 100)) 20 u1 (UVec [nofZ 1] [] []) = Some r.
Proof. eexists. vm_compute. reflexivity. Qed.

(** ** C53.  Result.error is always 0, whatever the error of the returned state. *)
Theorem C53_result_error_refuted : exists r s, toy_solve z64 None 2 [nofZ 3; nofZ 2; nofZ 2; nofZ 2] [] = Some (r, s) /\
  s_err s = nofZ 2 /\ r_error r = nofZ 0 /\ r_error r <> s_err s.
Proof. eexists; eexists; split; [vm_compute; reflexivity|]. repeat split. discriminate. Qed.
Print Assumptions C53_result_error_refuted.

Theorem C53_never_set : forall (T : Type) (N : Num T) (W : Type) fupdate ferror newton phi check
    (B : bounds T) o fuel (w : W) hist u r s,
  solve W fupdate ferror newton phi check fuel B o w hist u = Some (r, s) -> r_error r = nzero.
Proof.
  intros T N W fupdate ferror newton phi check B o fuel w hist u r s. unfold solve.
  destruct (loop _ _ _ _ _ _ _ _ _ _) as [s'|]; [|discriminate]. intros H. injection H as <- _. reflexivity.
Qed.
Print Assumptions C53_never_set.

(** ** C54.  The errors of earlier calculations do not influence the outcome ... *)
Theorem C54_reuse_partial : forall (T : Type) (N : Num T) (W : Type) fupdate ferror newton phi check
    (B : bounds T) o fuel (w : W) h1 h2 u r s,
  solve W fupdate ferror newton phi check fuel B o w h1 u = Some (r, s) ->
  exists s', solve W fupdate ferror newton phi check fuel B o w h2 u = Some (r, s') /\
    s_u s' = s_u s /\ s_w s' = s_w s /\ s_err s' = s_err s /\ s_iterates s' = s_iterates s /\ s_evals s' = s_evals s.
Proof.
  intros T N W fupdate ferror newton phi check B o fuel w h1 h2 u r s. unfold solve.
  destruct (loop_hist W fupdate ferror newton phi check fuel B o h1 h2 (initialize W fupdate ferror B w [] u)) as (t & E & _).
  change (seth W h1 (initialize W fupdate ferror B w [] u)) with (initialize W fupdate ferror B w h1 u) in E.
  change (seth W h2 (initialize W fupdate ferror B w [] u)) with (initialize W fupdate ferror B w h2 u) in E.
  destruct (loop W fupdate ferror newton phi check fuel B o (initialize W fupdate ferror B w h1 u)) as [s1|]; [|discriminate].
  intros H. injection H as <- <-.
  destruct (loop W fupdate ferror newton phi check fuel B o (initialize W fupdate ferror B w h2 u)) as [s2|]; [|discriminate].
  unfold option_map, seth in E. injection E as E1 E2 E3 E4 E5 E6 E7.
  exists s2. rewrite E5. repeat split; congruence.
Qed.
Print Assumptions C54_reuse_partial.

(** ... but Convergence::rate mixes them in (two iterations done, rate not 0), and a failed
    evaluation of h in an earlier problem is remembered in a problem without h. *)
Theorem C54_rate_refuted : exists r s r' s',
  toy_solve z64 None 9 [nofZ 3; nofZ 2; nofZ 0] [] = Some (r, s) /\ r_iterations r = 2%nat /\ rate (s_hist s) = nzero /\
  toy_solve z64 None 9 [nofZ 3; nofZ 2; nofZ 0] (s_hist s) = Some (r', s') /\ r_iterations r' = 2%nat /\ rate (s_hist s') <> nzero.
Proof.
  do 4 eexists. split; [vm_compute; reflexivity|]. split; [reflexivity|]. split; [reflexivity|].
  split; [vm_compute; reflexivity|]. split; [reflexivity|]. vm_compute. discriminate.
Qed.
Print Assumptions C54_rate_refuted.
Theorem C54_flags_refuted : let before := eval_flags 1 0 true false true (Flags true true true) in
  forall fok hok vok, all_ok (eval_flags 0 0 fok hok vok before) = false /\
    all_ok (eval_flags 0 0 true hok vok (Flags true true true)) = true.
Proof. intros before fok hok vok. unfold all_ok. cbn. rewrite !andb_false_r. split; reflexivity. Qed.
Print Assumptions C54_flags_refuted.

(** ** C77.  When the last three errors approach a limit linearly, rate() is the factor by which
    the distance shrinks; it is 0 while there are fewer than three errors. *)
Theorem C77_rate : forall (older : list R) (limit e q : R), (e <> 0)%R -> (q <> 1)%R ->
  rate (older ++ [limit + e; limit + q * e; limit + q * (q * e)]%R) = q.
Proof.
  intros older limit e q He Hq. unfold rate. rewrite app_length. cbn [length].
  destruct (Nat.ltb_spec (length older + 3) 3) as [H|H].
  { lia. }
  rewrite !app_nth2 by lia.
  replace (length older + 3 - 2 - length older) with 1 by lia.
  replace (length older + 3 - 1 - length older) with 2 by lia.
  replace (length older + 3 - 3 - length older) with 0 by lia.
  cbn. field. intros E. assert (P : (e * (1 - q) = 0)%R) by lra.
  apply Rmult_integral in P. destruct P as [P|P]; [exact (He P)|apply Hq; lra].
Qed.
Print Assumptions C77_rate.
Theorem C77_too_few : forall (T : Type) (N : Num T) (hist : list T), length hist < 3 -> rate hist = nzero.
Proof. intros T N hist H. unfold rate. destruct (Nat.ltb_spec (length hist) 3); [reflexivity|lia]. Qed.
Print Assumptions C77_too_few.
Example C77_case : (8 <> 0)%R /\ (/ 2 <> 1)%R /\ [8; 4; 2]%R = [0 + 8; 0 + / 2 * 8; 0 + / 2 * (/ 2 * 8)]%R.
Proof. repeat split; try lra. repeat (f_equal; try lra). Qed.

(** ** C55.  The world is the success flags; f fails at every point, solve succeeds. *)
Theorem C55_failure_refuted : exists r s,
  solve flags (fun w _ => eval_flags 0 0 false true true w) (fun _ _ => nofZ 0 : spec_float) (fun w => (w, u1)) None None 9 B1
    (Options 5 (nofZ 1) false) (Flags true true true) [] u1 = Some (r, s) /\
  r_succeeded r = true /\ all_ok (s_w s) = false.
Proof. eexists; eexists; split; [vm_compute; reflexivity|]. split; reflexivity. Qed.
Print Assumptions C55_failure_refuted.
