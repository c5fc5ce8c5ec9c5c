(** Property theorems C104 and C105: the same calculation with other limits. *)
From Coq Require Import List Arith Bool ZArith Reals Lra Lia SpecFloat Permutation.
From Verif Require Import Num Num_facts Minimize_model Loop_model Loop_spec Loop_proofs P_Loop Limits_proofs.
From Verif Require Import Index_model Num_rf R_rf Residual_model Wrapper_model Wrapper_spec End_model.
Import ListNotations.

(** The tolerance of o' is at least that of o (neither is NaN). *)
Definition tolerance_grows {T} {N : Num T} (o o' : options T) : Prop := nleb (o_tol o) (o_tol o') = true.

Lemma grows_xreal (o o' : options xreal) : tolerance_grows o o' -> looser o o'.
Proof.
  unfold tolerance_grows, looser. intros H e. revert H. destruct (o_tol o) as [a| | |], (o_tol o') as [b| | |], e as [c| | |]; cbn; try discriminate; try reflexivity.
  unfold rleb, rltb. destruct (Rle_dec a b), (Rlt_dec c a), (Rlt_dec c b); try discriminate; try reflexivity; lra.
Qed.
Lemma SFlt_le_trans a b c : SFltb a b = true -> SFleb b c = true -> SFltb a c = true.
Proof.
  unfold SFltb, SFleb, SFcompare.
  destruct a as [[]|[]| |[] ma ea], b as [[]|[]| |[] mb eb], c as [[]|[]| |[] mc ec]; try discriminate; try reflexivity;
    destruct (Z.compare_spec ea eb), (Z.compare_spec eb ec), (Z.compare_spec ea ec); try discriminate; try reflexivity; try lia;
    change Pos.compare_cont with Pos.compare_cont; rewrite ?Pcompare_eq_iff;
    fold (Pos.compare ma mb) (Pos.compare mb mc) (Pos.compare ma mc);
    destruct (Pos.compare_spec ma mb), (Pos.compare_spec mb mc), (Pos.compare_spec ma mc); cbn; try discriminate; try reflexivity; lia.
Qed.
Lemma grows_b64 (o o' : options spec_float) : tolerance_grows o o' -> looser o o'.
Proof. intros H e L. exact (SFlt_le_trans e (o_tol o) (o_tol o') L H). Qed.

(** ** C104.  Iterations that were allowed but not needed do not matter: a calculation that succeeds gives the same result and
    the same point for every limit of at least the number of iterations it took.  In every number
    system (binary64 included), for all user functions, Newton directions, transformations and
    convergence checks. *)
Theorem C104_maxiters_any : forall (T : Type) (N : Num T) (W : Type) fupdate ferror newton phi check
    (B : bounds T) o o' fuel (w : W) hist u r s,
  o_tol o' = o_tol o -> o_fix o' = o_fix o ->
  solve W fupdate ferror newton phi check fuel B o w hist u = Some (r, s) -> r_succeeded r = true ->
  r_iterations r <= o_maxiters o' ->
  solve W fupdate ferror newton phi check fuel B o' w hist u = Some (r, s).
Proof.
  intros T N W fupdate ferror newton phi check B o o' fuel w hist u r s TL F. unfold solve.
  destruct (loop _ _ _ _ _ _ fuel B o _) as [s1|] eqn:E; [|discriminate]. intros H. injection H as <- <-. cbn [r_succeeded r_iterations].
  intros S L. pose proof S as S1. apply Nat.leb_le in S. rewrite (loop_limit _ _ _ _ _ _ _ _ _ _ _ _ F TL E S L).
  apply Nat.leb_le in L. rewrite S1, L. reflexivity.
Qed.
Print Assumptions C104_maxiters_any.

(** With a larger tolerance (and at least the iterations) it still succeeds and takes no more
    iterations.  It returns the same, or the point at which the limit stops the first calculation after as many
    iterations. *)
Theorem C104_tolerance_any : forall (T : Type) (N : Num T) (W : Type) fupdate ferror newton phi check
    (B : bounds T) o o' fuel (w : W) hist u r s,
  (forall e, nltb e (o_tol o) = true -> nltb e (o_tol o') = true) -> o_fix o' = o_fix o -> o_maxiters o <= o_maxiters o' ->
  solve W fupdate ferror newton phi check fuel B o w hist u = Some (r, s) -> r_succeeded r = true ->
  exists r' s', solve W fupdate ferror newton phi check fuel B o' w hist u = Some (r', s') /\ r_succeeded r' = true /\
    r_iterations r' <= r_iterations r /\
    (r' = r /\ s' = s \/
     r_iterations r' < r_iterations r /\
     exists r'' s'', solve W fupdate ferror newton phi check fuel B (Options (r_iterations r' - 1) (o_tol o) (o_fix o)) w hist u = Some (r'', s'') /\
       r_succeeded r'' = false /\ r_iterations r'' = r_iterations r' /\ s_u s'' = s_u s' /\ s_w s'' = s_w s').
Proof.
  intros T N W fupdate ferror newton phi check B o o' fuel w hist u r s TL F MX. unfold solve.
  destruct (loop _ _ _ _ _ _ fuel B o _) as [s1|] eqn:E; [|discriminate]. intros H. injection H as <- <-. cbn [r_succeeded r_iterations].
  intros S. pose proof S as S1. apply Nat.leb_le in S.
  destruct (loop_looser _ _ _ _ _ _ _ _ _ _ _ _ F MX TL E S) as (s2 & E2 & I2 & D). rewrite E2.
  assert (L2 : Nat.leb (s_iters s2) (o_maxiters o') = true) by (apply Nat.leb_le; lia).
  eexists. eexists. split; [reflexivity|]. cbn [r_succeeded r_iterations]. split; [exact L2|]. split; [exact I2|].
  destruct D as [->|(D & t & Et & It & Ut & Wt)].
  - left. rewrite L2, S1. split; reflexivity.
  - right. split; [exact D|]. rewrite Et. eexists. eexists. split; [reflexivity|]. cbn [r_succeeded r_iterations o_maxiters].
    pose proof (iters_loop _ _ _ _ _ _ _ _ _ _ _ E2) as I3. cbn in I3. rewrite It. split; [|repeat split; assumption].
    apply Nat.leb_gt. lia.
Qed.
Print Assumptions C104_tolerance_any.

(** A calculation that fails gives the same result and the same point for every smaller tolerance. *)
Theorem C104_failure_any : forall (T : Type) (N : Num T) (W : Type) fupdate ferror newton phi check
    (B : bounds T) o o' fuel (w : W) hist u r s,
  (forall e, nltb e (o_tol o') = true -> nltb e (o_tol o) = true) -> o_fix o' = o_fix o -> o_maxiters o' = o_maxiters o ->
  solve W fupdate ferror newton phi check fuel B o w hist u = Some (r, s) -> r_succeeded r = false ->
  solve W fupdate ferror newton phi check fuel B o' w hist u = Some (r, s).
Proof.
  intros T N W fupdate ferror newton phi check B o o' fuel w hist u r s TL F MX. unfold solve.
  destruct (loop _ _ _ _ _ _ fuel B o _) as [s1|] eqn:E; [|discriminate]. intros H. injection H as <- <-. cbn [r_succeeded].
  intros S. pose proof S as S1. apply Nat.leb_gt in S. rewrite (loop_fails _ _ _ _ _ _ _ _ _ _ _ _ F MX TL E S).
  rewrite MX. reflexivity.
Qed.
Print Assumptions C104_failure_any.

(** ** C104 for Solver::solve. *)
Theorem C104_maxiters : forall part E ech nonfinite newton phi check fuel o o' f1 f2 f3 oAx oAp obc (w : world E) hist m P st r st',
  o_tol o' = o_tol o -> o_fix o' = o_fix o ->
  u_solve part ech nonfinite newton phi check fuel o f1 f2 f3 oAx oAp obc w hist m P st = Some (r, st') -> r_succeeded r = true ->
  r_iterations r <= o_maxiters o' ->
  u_solve part ech nonfinite newton phi check fuel o' f1 f2 f3 oAx oAp obc w hist m P st = Some (r, st').
Proof.
  intros part E ech nonfinite newton phi check fuel o o' f1 f2 f3 oAx oAp obc w hist m P st r st' TL F. unfold u_solve.
  destruct (update_master f1 f2 f3 oAx oAp obc P) as [M|]; [|discriminate].
  destruct (m_solve part M ech nonfinite newton phi check fuel o w hist _) as [[r1 s]|] eqn:S; [|discriminate].
  intros H. injection H as -> <-. intros OK L. unfold m_solve in *.
  rewrite (C104_maxiters_any _ _ _ _ _ _ _ _ _ o o' _ _ _ _ _ _ TL F S OK L). reflexivity.
Qed.
Print Assumptions C104_maxiters.

Theorem C104_tolerance : forall part E ech nonfinite newton phi check fuel o o' f1 f2 f3 oAx oAp obc (w : world E) hist m P st r st',
  tolerance_grows o o' -> o_fix o' = o_fix o -> o_maxiters o <= o_maxiters o' ->
  u_solve part ech nonfinite newton phi check fuel o f1 f2 f3 oAx oAp obc w hist m P st = Some (r, st') -> r_succeeded r = true ->
  exists r1 st1, u_solve part ech nonfinite newton phi check fuel o' f1 f2 f3 oAx oAp obc w hist m P st = Some (r1, st1) /\
    r_succeeded r1 = true /\ r_iterations r1 <= r_iterations r /\
    (r1 = r /\ st1 = st' \/
     r_iterations r1 < r_iterations r /\
     exists r2, u_solve part ech nonfinite newton phi check fuel (Options (r_iterations r1 - 1) (o_tol o) (o_fix o)) f1 f2 f3 oAx oAp obc w hist m P st = Some (r2, st1) /\
       r_succeeded r2 = false /\ r_iterations r2 = r_iterations r1).
Proof.
  intros part E ech nonfinite newton phi check fuel o o' f1 f2 f3 oAx oAp obc w hist m P st r st' TL F MX. unfold u_solve.
  destruct (update_master f1 f2 f3 oAx oAp obc P) as [M|]; [|discriminate].
  destruct (m_solve part M ech nonfinite newton phi check fuel o w hist _) as [[r0 s]|] eqn:S; [|discriminate].
  intros H. injection H as -> <-. intros OK. unfold m_solve in *.
  destruct (C104_tolerance_any _ _ _ _ _ _ _ _ _ o o' _ _ _ _ _ _ (grows_xreal _ _ TL) F MX S OK) as (r1 & s1 & S1 & OK1 & I1 & D).
  rewrite S1. eexists. eexists. split; [reflexivity|]. split; [exact OK1|]. split; [exact I1|].
  destruct D as [[-> ->]|(L & r2 & s2 & S2 & OK2 & I2 & EU & EW)]; [left; split; reflexivity|right]. split; [exact L|].
  rewrite S2, EU, EW. eexists. split; [reflexivity|]. split; assumption.
Qed.
Print Assumptions C104_tolerance.

Theorem C104_failure : forall part E ech nonfinite newton phi check fuel o o' f1 f2 f3 oAx oAp obc (w : world E) hist m P st r st',
  tolerance_grows o' o -> o_fix o' = o_fix o -> o_maxiters o' = o_maxiters o ->
  u_solve part ech nonfinite newton phi check fuel o f1 f2 f3 oAx oAp obc w hist m P st = Some (r, st') -> r_succeeded r = false ->
  u_solve part ech nonfinite newton phi check fuel o' f1 f2 f3 oAx oAp obc w hist m P st = Some (r, st').
Proof.
  intros part E ech nonfinite newton phi check fuel o o' f1 f2 f3 oAx oAp obc w hist m P st r st' TL F MX. unfold u_solve.
  destruct (update_master f1 f2 f3 oAx oAp obc P) as [M|]; [|discriminate].
  destruct (m_solve part M ech nonfinite newton phi check fuel o w hist _) as [[r1 s]|] eqn:S; [|discriminate].
  intros H. injection H as -> <-. intros OK. unfold m_solve in *.
  rewrite (C104_failure_any _ _ _ _ _ _ _ _ _ o o' _ _ _ _ _ _ (grows_xreal _ _ TL) F MX S OK). reflexivity.
Qed.
Print Assumptions C104_failure.

(** In binary64: with tolerance 1 three iterations, with tolerance 5/2 (9 iterations allowed instead of 5) two; with
    tolerance 1 and the limit 1 the calculation ends at the same point. *)
Definition half5 : spec_float := ndiv (nofZ 5) (nofZ 2).
Definition toy_with (o : options spec_float) :=
  solve (list spec_float) toy_update toy_error (toy_newton (nofZ 10)) None None 100 B1 o [z64; nofZ 3; nofZ 3; nofZ 2; nofZ 0] [] u1.
Example C104_case : exists s s1 s2, tolerance_grows (Options 5 (nofZ 1) false) (Options 9 half5 false) /\
  toy_with (Options 5 (nofZ 1) false) = Some (Result true 3 z64, s) /\ toy_with (Options 3 (nofZ 1) false) = Some (Result true 3 z64, s) /\
  toy_with (Options 9 half5 false) = Some (Result true 2 z64, s1) /\
  toy_with (Options 1 (nofZ 1) false) = Some (Result false 2 z64, s2) /\ s_u s2 = s_u s1.
Proof.
  do 3 eexists. split; [vm_compute; reflexivity|]. split; [vm_compute; reflexivity|]. split; [vm_compute; reflexivity|].
  split; [vm_compute; reflexivity|]. split; [vm_compute; reflexivity|]. reflexivity.
Qed.
