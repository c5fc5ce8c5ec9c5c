(** Property theorems C108: exceptions thrown by the user's functions. *)
From Coq Require Import List PeanoNat Reals Lia SpecFloat.
From mathcomp Require Import all_ssreflect all_fingroup all_algebra.
From Verif Require Import Num Num_facts Index_model Num_rf R_rf Residual_model EchelonO_model Loop_model Loop_spec Loop_proofs P_Loop Limits_proofs P_Resume Wrapper_model Wrapper_spec End_model End_spec Throw_model Throw_spec Throw_proofs.
Set Implicit Arguments.
Unset Strict Implicit.
Unset Printing Implicit Defensive.
Local Open Scope ring_scope.

(** ** C108.  Functions that can throw but did not: the call has the outcome of the loop without exceptions, to which the other
    properties apply. *)
Theorem C108_returns : forall (T : Type) (N : Num T) (W : Type) fupdate ferror newton phi check fuel (B : bounds T) o (w : W) hist u r s,
  t_solve W fupdate ferror newton phi check fuel B o w hist u = Some (Ret (r, s)) ->
  solve W (quiet_update fupdate) ferror newton (quiet_phi phi) (quiet_check check) fuel B o w hist u = Some (r, s).
Proof. intros; now apply ret_solve. Qed.
Print Assumptions C108_returns.

(** Functions that never throw: solve returns whenever the loop ends. *)
Theorem C108_never : forall (T : Type) (N : Num T) (W : Type) fupdate ferror newton phi check fuel (B : bounds T) o (w : W) hist u,
  never_throw fupdate phi check ->
  t_solve W fupdate ferror newton phi check fuel B o w hist u =
  option_map Ret (solve W (quiet_update fupdate) ferror newton (quiet_phi phi) (quiet_check check) fuel B o w hist u).
Proof. intros; now apply quiet_solve. Qed.
Print Assumptions C108_never.

(** solve throws only if one of the user's functions did, at the point that the solver then holds. *)
Theorem C108_where : forall (T : Type) (N : Num T) (W : Type) fupdate ferror newton phi check fuel (B : bounds T) o (w : W) hist u s,
  t_solve W fupdate ferror newton phi check fuel B o w hist u = Some (Throw s) -> threw_at fupdate phi check s.
Proof. intros T N W fupdate ferror newton phi check fuel B o w hist u s H. apply throw_solve in H. exact (proj1 H). Qed.
Print Assumptions C108_where.

(** Without a transformation the point is within the bounds. *)
Theorem C108_bounds_partial : forall (T : Type) (N : Num T) (NT : NumTot T) (W : Type) fupdate ferror newton check fuel nx np (B : bounds T) o (w : W) hist u s,
  good_bounds nx np B -> t_solve W fupdate ferror newton None check fuel B o w hist u = Some (Throw s) -> inbox B (s_u s).
Proof.
  intros T N NT W fupdate ferror newton check fuel nx np B o w hist u s G H.
  apply throw_solve in H; destruct (proj2 H Logic.eq_refl) as [E|(uo & v & E)]; rewrite E; [now apply clampu_inbox with nx np | now apply backtrack_inbox with nx np].
Qed.
Print Assumptions C108_bounds_partial.

(** So functions that throw only outside the bounds never throw during solve.  Missing: problems with a transformation (next theorem). *)
Theorem C108_inside_partial : forall (T : Type) (N : Num T) (NT : NumTot T) (W : Type) fupdate ferror newton fuel nx np (B : bounds T) o (w : W) hist u s,
  good_bounds nx np B -> (forall w u, inbox B u -> snd (fupdate w u) = false) ->
  t_solve W fupdate ferror newton None None fuel B o w hist u <> Some (Throw s).
Proof.
  intros T N NT W fupdate ferror newton fuel nx np B o w hist u s G Q H.
  pose proof (@C108_bounds_partial _ _ NT _ _ _ _ _ _ _ _ _ _ _ _ _ _ G H) as I. destruct (@C108_where _ _ _ _ _ _ _ _ _ _ _ _ _ _ _ H) as [(w1 & E)|[(ph & _ & _ & _ & E & _)|(c & E & _)]]; [|discriminate E|discriminate E].
  specialize (Q w1 _ I). rewrite E in Q. discriminate Q.
Qed.
Print Assumptions C108_inside_partial.

(** In binary64, one variable x in [0, 100], functions that throw for x < 0 (a logarithm, say), a Newton step of -20 from 5.  With the
    bounds alone solve evaluates the functions at 0 and returns. *)
Definition log_update (w : spec_float) (u : uvec spec_float) : spec_float * bool := (List.hd z64 (ux u), nltb (List.hd z64 (ux u)) z64).
Definition back20 (w : spec_float) : spec_float * uvec spec_float := (w, UVec (nofZ (-20) :: nil) nil nil).
Definition B108 : bounds spec_float := Bounds (z64 :: nil) (nofZ 100 :: nil) nil nil.
Definition u108 : uvec spec_float := UVec (nofZ 5 :: nil) nil nil.
(** a transformation that declines every step *)
Definition decline : option (spec_float -> list spec_float -> list spec_float -> spec_float * option bool * list spec_float) :=
  Some (fun w _ x => (w, Some false, x)).
Definition log_solve phi := t_solve spec_float log_update (fun w _ => w) back20 phi None 100 B108 (Options 10 (nofZ 1) false) z64 nil u108.

Lemma B108_good : good_bounds 1 0 B108.
Proof. repeat split; repeat constructor. Qed.
Lemma log_inside w u : inbox B108 u -> snd (log_update w u) = false.
Proof.
  destruct u as [x p y]. intros [I _]. destruct x as [|b x]; [vm_compute; reflexivity|].
  specialize (I 0%N (Nat.lt_0_succ _)). cbn [ux xlo xhi B108 List.nth] in I. cbv [log_update snd ux List.hd].
  destruct I as [H|[H _]]; destruct b as [sb|sb| |sb mb eb]; try discriminate H; try reflexivity; destruct sb; try reflexivity; discriminate H.
Qed.

Example C108_inside_case : exists r s, log_solve None = Some (Ret (r, s)) /\ r_succeeded r = true /\ s_u s = UVec (z64 :: nil) nil nil.
Proof. do 2 eexists; split; [vm_compute; reflexivity|]; split; vm_compute; reflexivity. Qed.
Example C108_inside_case' : forall s, log_solve None <> Some (Throw s).
Proof. intros s. apply (@C108_inside_partial _ _ NumTot_b64 _ _ _ _ _ 1 0); [exact B108_good | exact log_inside]. Qed.

(** With a transformation that declines the step, solve evaluates the functions at the Newton point -15, before
    anything has put it back within the bounds, and throws. *)
Theorem C108_inside_refuted : exists s, good_bounds 1 0 B108 /\ (forall w u, inbox B108 u -> snd (log_update w u) = false) /\
  never_throw (fun w u => (fst (log_update w u), false)) decline None /\
  log_solve decline = Some (Throw s) /\ s_u s = UVec (nofZ (-15) :: nil) nil nil /\ ~ inbox B108 (s_u s).
Proof.
  assert (E : exists s, log_solve decline = Some (Throw s) /\ s_u s = UVec (nofZ (-15) :: nil) nil nil).
  { eexists; split; [vm_compute; reflexivity | vm_compute; reflexivity]. }
  destruct E as (s & E & U). exists s. split; [exact B108_good|]. split; [exact log_inside|].
  split; [split; [reflexivity|]; split; [intros ph w xo x H; injection H as <-; discriminate | discriminate]|].
  split; [exact E|]. split; [exact U|]. rewrite U. intros [I _]. specialize (I 0%N (Nat.lt_0_succ _)). revert I. vm_compute. intuition congruence.
Qed.
Print Assumptions C108_inside_refuted.

(** ** Solver::solve: a call that throws leaves the State as it was. *)
Theorem C108_state : forall (T : Type) (N : Num T) (W : Type) fupdate ferror newton phi check part fin d fuel (B : bounds T) o (mem mem' : mstate T * W * list T) st st',
  t_call W fupdate ferror newton phi check part fin d fuel B o mem st = Some (None, st', mem') -> st' = st.
Proof.
  intros T N W fupdate ferror newton phi check part fin d fuel B o [[m w] hist] mem' st st'. unfold t_call.
  destruct (t_solve _ _ _ _ _ _ _ _ _ _ _ _) as [[[r s]|s]|]; [discriminate| |discriminate]. intros H. now injection H as <- _.
Qed.
Print Assumptions C108_state.

(** ... and the same solver can be used again: after a call that threw, a call with functions that do not throw
    (no_memory: they depend on the point only) has the outcome and the point of the same call on a solver with any other memory, a new one, say.
    Missing: a convergence check of the user, an echelonizer that remembers earlier points (C54), the values of s and the index sets when no update
    went through. *)
Theorem C108_next_partial : forall (T : Type) (N : Num T) (W : Type) part
    fupdate1 ferror1 newton1 phi1 check1 fin1 d1 fuel1 (B1 : bounds T) o1 (mem mem1 : mstate T * W * list T) st st1
    fupdate ferror newton phi (same : W -> W -> Prop) fin d fuel (B : bounds T) o mem0 st2 a st' mem',
  t_call W fupdate1 ferror1 newton1 phi1 check1 part fin1 d1 fuel1 B1 o1 mem st = Some (None, st1, mem1) ->
  never_throw fupdate phi None -> no_memory (quiet_update fupdate) ferror newton (quiet_phi phi) same ->
  (forall m w u, (t_x (fin m w u), t_p (fin m w u), t_w (fin m w u)) = (ux u, up u, uw u)) ->
  t_call W fupdate ferror newton phi None part fin d fuel B o mem1 st2 = Some (a, st', mem') ->
  exists r st0 mem0', a = Some r /\ t_call W fupdate ferror newton phi None part fin d fuel B o mem0 st2 = Some (Some r, st0, mem0') /\ same_point st' st0.
Proof.
  intros T N W part fupdate1 ferror1 newton1 phi1 check1 fin1 d1 fuel1 B1 o1 mem mem1 st st1 fupdate ferror newton phi same fin d fuel B o mem0 st2 a st' mem'.
  intros _ Q (M1 & M2 & M3 & M4) F. destruct mem1 as [[m1 w1] h1]. destruct mem0 as [[m0 w0] h0]. unfold t_call.
  assert (EQ : forall w h u, t_solve W fupdate ferror newton phi None fuel B o w h u = option_map Ret (solve W (quiet_update fupdate) ferror newton (quiet_phi phi) None fuel B o w h u)).
  { intros w h u. now apply C108_never. }
  rewrite !EQ. clear EQ. cbn [to_master t_x t_p t_w]. set (u := UVec _ _ _).
  unfold solve. destruct (loop W _ _ _ _ None fuel B o (initialize W _ _ B w1 h1 u)) as [s|] eqn:E; cbn [option_map]; [|discriminate].
  intros H. injection H as <- <- _.
  destruct (like_loop W (quiet_update fupdate) ferror newton (quiet_phi phi) B same M1 M2 M3 M4 fuel o o 0 (initialize W (quiet_update fupdate) ferror B w0 h0 u) (initialize W (quiet_update fupdate) ferror B w1 h1 u) s Logic.eq_refl Logic.eq_refl Logic.eq_refl) as (t & E0 & S0 & U0 & I0).
  - unfold like, initialize, update. cbn [s_w s_uo s_u s_err]. split; [apply M1|]. split; [reflexivity|]. split; [reflexivity|]. apply M2, M1.
  - reflexivity.
  - exact E.
  - rewrite E0. cbn [option_map]. do 3 eexists. split; [reflexivity|]. split.
    + rewrite I0. reflexivity.
    + unfold same_point, of_master. cbn [s_x s_p s_ye s_yg s_ze s_zg s_xbg s_xhg].
      assert (P : forall m w v, t_x (fin m w v) = ux v /\ t_p (fin m w v) = up v /\ t_w (fin m w v) = uw v) by (intros m w v; specialize (F m w v); injection F; auto).
      destruct (P (to_master m1 st2) (s_w s) (s_u s)) as (A1 & A2 & A3). destruct (P (to_master m0 st2) (s_w t) (s_u t)) as (C1 & C2 & C3).
      cbn [to_master] in A1, A2, A3, C1, C2, C3. rewrite A1 A2 A3 C1 C2 C3 U0. reflexivity.
Qed.
Print Assumptions C108_next_partial.

(** the example above as two calls: the first throws, the second has no transformation *)
Definition d108 : dims := Dims 1 0 0 0 0 0 0.
Definition fin108 (m : mstate spec_float) (w : spec_float) (u : uvec spec_float) : mstate spec_float :=
  MState (ux u) (up u) (uw u) (t_s m) (t_js m) (t_ju m) (t_jlu m) (t_juu m) (t_jb m) (t_jn m).
Definition st108 : ustate spec_float := UState d108 (nofZ 5 :: nil) nil nil nil nil nil (z64 :: nil) nil nil nil nil nil nil nil nil.
Definition log_call phi mem st := t_call spec_float log_update (fun w _ => w) back20 phi None std_stable_partition fin108 d108 100 B108 (Options 10 (nofZ 1) false) mem st.
(** the functions of the second call do not throw: |x|, say, instead of the logarithm *)
Definition abs_update (w : spec_float) (u : uvec spec_float) : spec_float * bool := (nabs (List.hd z64 (ux u)), false).
Definition abs_call mem st := t_call spec_float abs_update (fun w _ => w) back20 None None std_stable_partition fin108 d108 100 B108 (Options 10 (nofZ 1) false) mem st.
Definition mem108 : mstate spec_float * spec_float * list spec_float := (MState nil nil nil nil nil nil nil nil nil nil, z64, nil).
Lemma abs_memory : never_throw abs_update None None /\ no_memory (quiet_update abs_update) (fun w _ => w) back20 (quiet_phi None) eq.
Proof. split; [split; [reflexivity|]; split; discriminate|]. split; [reflexivity|]. split; [intros w w' _ H; exact H|]. split; [reflexivity|discriminate]. Qed.
Example C108_next_case : exists mem1 r st2 mem2, log_call decline mem108 st108 = Some (None, st108, mem1) /\ mem1 <> mem108 /\
  abs_call mem1 st108 = Some (Some r, st2, mem2) /\ r_succeeded r = true /\ s_x st2 = z64 :: nil.
Proof.
  do 4 eexists. split; [vm_compute; reflexivity|]. split; [intros H; apply (f_equal (fun m => List.length (t_x (fst (fst m))))) in H; vm_compute in H; discriminate H|].
  split; [vm_compute; reflexivity|]. split; vm_compute; reflexivity.
Qed.

(** ** In the model of Solver::solve over the reals ([u_solve]): functions that can throw, at the points and in the circumstances given by
    [throws], a transformation and a check that can throw; a call that returns, returns what u_solve returns. *)
Theorem C108_solver : forall part E ech nonfinite newton phi check (throws : world E -> uvec xreal -> bool) n o f1 f2 f3 oAx oAp obc
    (w : world E) hist m (P : problem R xreal) st M r st' mem',
  update_master f1 f2 f3 oAx oAp obc P = Some M ->
  t_call (world E) (fun w u => (w_update part M ech nonfinite w u, throws w u)) (fun w _ => w_err w) newton phi check part (@finalize E) (p_dims P) n (m_bounds M) o (m, w, hist) st
    = Some (Some r, st', mem') ->
  u_solve part ech nonfinite newton (quiet_phi phi) (quiet_check check) n o f1 f2 f3 oAx oAp obc w hist m P st = Some (r, st').
Proof.
  intros part E ech nonfinite newton phi check throws n o f1 f2 f3 oAx oAp obc w hist m P st M r st' mem' U. unfold t_call, u_solve. rewrite U.
  destruct (t_solve _ _ _ _ _ _ _ _ _ _ _ _) as [[[r0 s]|s]|] eqn:S; [|discriminate|discriminate]. intros H. injection H as <- <- _.
  apply C108_returns in S. unfold m_solve. unfold quiet_update in S. cbn [fst] in S.
  change (fun w0 u => w_update part M ech nonfinite w0 u) with (w_update part M ech nonfinite) in S. rewrite S. reflexivity.
Qed.
Print Assumptions C108_solver.
