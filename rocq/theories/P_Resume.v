(** Property theorems C105: a calculation that the limit stopped is continued by a second call. *)
From Coq Require Import List PeanoNat Permutation Reals Lra Lia SpecFloat.
From mathcomp Require Import all_ssreflect all_fingroup all_algebra.
From Verif Require Import Num Num_facts Index_model Index_spec Num_rf R_rf Echelon_model Echelon_spec LU_model Linear_model Canonical_model Canonical_spec.
From Verif Require Import Linear_spec P_Linear Residual_model Residual_spec EchelonO_model EchelonO_spec Loop_model Loop_spec Loop_proofs P_Loop Stay_proofs Limits_proofs P_Limits Wrapper_model Wrapper_spec Wrapper_proofs P_Wrapper End_model End_spec End_proofs P_End Newton_model P_EchelonO P_Status P_Newton Reuse_spec.
Set Implicit Arguments.
Unset Strict Implicit.
Unset Printing Implicit Defensive.
Import Order.TTheory GRing.Theory Num.Theory.
Local Open Scope ring_scope.
Local Notation "l ++ l'" := (List.app l l') : seq_scope.

(** The evaluation of the functions, the error, the Newton direction and the transformation depend on the
    point only: after an update at the same point two worlds are [same], and [same] worlds have the same errors
    and Newton directions. *)
Definition no_memory (T W : Type) (fupdate : W -> uvec T -> W) (ferror : W -> uvec T -> T) (newton : W -> W * uvec T)
    (phi : option (W -> list T -> list T -> W * bool * list T)) (same : W -> W -> Prop) : Prop :=
  (forall w w' u, same (fupdate w u) (fupdate w' u)) /\ (forall w w' u, same w w' -> ferror w u = ferror w' u) /\
  (forall w w', same w w' -> snd (newton w) = snd (newton w')) /\
  (forall ph w w' xo x, phi = Some ph -> snd (fst (ph w xo x)) = snd (fst (ph w' xo x)) /\ snd (ph w xo x) = snd (ph w' xo x)).

(** ** C105.  A calculation stopped by the limit and resumed by a second call from the point it returned gives what one
    calculation with the added limits gives (the first call makes one iteration more than its limit): the same
    success, the same point, the iterations added up.  The exception: if the point returned by the first call meets the
    tolerance already, the single calculation ends there, with success.  In every number
    system, without a convergence check of the user.  Missing: calculations in which the echelonizer remembers earlier points. *)
Theorem C105_resume_any_partial : forall (T : Type) (N : Num T) (W : Type) fupdate ferror newton phi (same : W -> W -> Prop)
    (B : bounds T) o1 o2 f1 f2 w hist u r1 s1 w' hist' r2 s2,
  no_memory fupdate ferror newton phi same -> o_tol o2 = o_tol o1 -> o_fix o2 = o_fix o1 ->
  solve W fupdate ferror newton phi None f1 B o1 w hist u = Some (r1, s1) -> r_succeeded r1 = false -> clampu B (s_u s1) = s_u s1 ->
  solve W fupdate ferror newton phi None f2 B o2 w' hist' (s_u s1) = Some (r2, s2) ->
  exists r s, solve W fupdate ferror newton phi None (Nat.add f1 f2) B (Options (Nat.add (r_iterations r1) (o_maxiters o2)) (o_tol o1) (o_fix o1)) w hist u = Some (r, s) /\
    (nltb (s_err s1) (o_tol o1) = false ->
       r_succeeded r = r_succeeded r2 /\ r_iterations r = Nat.add (r_iterations r1) (r_iterations r2) /\ s_u s = s_u s2 /\ same (s_w s) (s_w s2)) /\
    (nltb (s_err s1) (o_tol o1) = true ->
       r_succeeded r = true /\ r_iterations r = r_iterations r1 /\ s_u s = s_u s1 /\ s_w s = s_w s1).
Proof.
move=> T N W fupdate ferror newton phi same B o1 o2 f1 f2 w hist u r1 s1 w' hist' r2 s2 [M1 [M2 [M3 M4]]] TL F.
rewrite /solve; case E1: (loop _ _ _ _ _ _ f1 _ _ _) => [t1|//] [<- <-]; cbn [r_succeeded r_iterations] => /Nat.leb_gt L CL.
case E2: (loop _ _ _ _ _ _ f2 _ _ _) => [t2|//] [<- <-]; cbn [r_succeeded r_iterations].
case C: (nltb (s_err t1) (o_tol o1)).
  have [t [Et [W1 [U1 I1]]]] := @loop_noticed _ _ _ _ _ _ _ B f1 o1 (Nat.add (s_iters t1) (o_maxiters o2)) _ _ E1 L C (Nat.le_add_r _ _).
  rewrite (@loop_mono _ _ _ _ _ _ _ B f1 (Nat.add f1 f2) _ _ _ (Nat.le_add_r _ _) Et).
  eexists; eexists; split; first by reflexivity.
  split=> // _; cbn [r_succeeded r_iterations o_maxiters]; rewrite I1; split=> //.
  by apply/Nat.leb_le; exact: Nat.le_add_r.
have [t [Et [W1 [U1 I1]]]] := @loop_resume _ _ _ _ _ _ _ B same M1 M2 M3 M4 f1 f2 o1 o2 _ _ w' hist' _ TL F E1 L C CL E2.
rewrite Et; eexists; eexists; split; first by reflexivity.
split=> // _; cbn [r_succeeded r_iterations o_maxiters]; rewrite I1; split=> //.
by case: (Nat.leb_spec (s_iters t2) (o_maxiters o2)) => H; [apply/Nat.leb_le | apply/Nat.leb_gt]; lia.
Qed.
Print Assumptions C105_resume_any_partial.

(** In binary64: one variable x in [0, 100] that every Newton step halves; the error is x, the tolerance 1.  From 8 with the limit 1 (two
    iterations) and then the limit 5, and at once with the limit 7: *)
Definition halve (w : spec_float) : spec_float * uvec spec_float := (w, UVec (nopp (ndiv w (nofZ 2)) :: nil) nil nil).
Definition B105 : bounds spec_float := Bounds (nofZ 0 :: nil) (nofZ 100 :: nil) nil nil.
Definition half_update (w : spec_float) (u : uvec spec_float) : spec_float := List.hd z64 (ux u).
Definition half_solve (limit : nat) (x : spec_float) :=
  solve spec_float half_update (fun w _ => w) halve None None 100 B105 (Options limit (nofZ 1) false) z64 nil (UVec (x :: nil) nil nil).
Lemma half_memory : no_memory half_update (fun w _ => w) halve None eq.
Proof. by split=> //; split=> //; split=> // w w' ->. Qed.
Example C105_case : exists s1 s2 s, half_solve 1 (nofZ 8) = Some (Result false 2 z64, s1) /\ s_u s1 = UVec (nofZ 2 :: nil) nil nil /\
  nltb (s_err s1) (nofZ 1) = false /\ half_solve 5 (nofZ 2) = Some (Result true 2 z64, s2) /\ half_solve 7 (nofZ 8) = Some (Result true 4 z64, s) /\ s_u s = s_u s2.
Proof.
do 3!eexists; split; [vm_compute; reflexivity|]; split; [vm_compute; reflexivity|]; split; [vm_compute; reflexivity|].
split; [vm_compute; reflexivity|]; split; [vm_compute; reflexivity|]; vm_compute; reflexivity.
Qed.

Definition half : spec_float := ndiv (nofZ 1) (nofZ 2).
Definition quarter : spec_float := ndiv (nofZ 1) (nofZ 4).
Lemma half_quarter : half <> quarter.
Proof. by vm_compute. Qed.
Lemma half_run4 : exists s, half_solve 4 (nofZ 8) = Some (Result true 4 z64, s) /\ s_u s = UVec (half :: nil) nil nil.
Proof. eexists; split; [vm_compute; reflexivity | vm_compute; reflexivity]. Qed.
Lemma half_run3 : exists s, half_solve 3 (nofZ 8) = Some (Result false 4 z64, s) /\ s_u s = UVec (half :: nil) nil nil.
Proof. eexists; split; [vm_compute; reflexivity | vm_compute; reflexivity]. Qed.
Lemma half_run5 : exists s, half_solve 5 half = Some (Result true 1 z64, s) /\ s_u s = UVec (quarter :: nil) nil nil.
Proof. eexists; split; [vm_compute; reflexivity | vm_compute; reflexivity]. Qed.
Lemma half_any n x s limit : half_solve n x = Some (Result true n z64, s) -> (n <= limit)%coq_nat -> half_solve limit x = Some (Result true n z64, s).
Proof.
by move=> S L; apply: (@C104_maxiters_any _ _ _ _ _ _ _ _ _ (Options n (nofZ 1) false) (Options limit (nofZ 1) false) 100%N z64 nil _ _ _ erefl erefl S).
Qed.

(** ... but with the limit 3 the first call ends at 1/2, reported as a failure, and the second call goes on to 1/4, where a single
    calculation never comes. *)
Theorem C105_resume_refuted : exists x s1 s2 s,
  half_solve 3 (nofZ 8) = Some (Result false 4 z64, s1) /\ s_u s1 = UVec (x :: nil) nil nil /\
  half_solve 5 x = Some (Result true 1 z64, s2) /\
  (forall limit, (4 <= limit)%coq_nat -> half_solve limit (nofZ 8) = Some (Result true 4 z64, s)) /\ s_u s <> s_u s2.
Proof.
have [s [S US]] := half_run4; have [s1 [S1 U1]] := half_run3; have [s2 [S2 U2]] := half_run5.
exists half, s1, s2, s; split; first exact: S1.
split; first exact: U1.
split; first exact: S2.
split; last by rewrite US U2 => H; apply: half_quarter; exact: (f_equal (fun u => List.hd z64 (ux u)) H).
by move=> limit L; exact: half_any S L.
Qed.
Print Assumptions C105_resume_refuted.

Lemma u_memory part M E ech nonfinite newton phi :
  (forall a a' Wx Wp wt, (ech a Wx Wp wt).2 = (ech a' Wx Wp wt).2) -> (forall a a' u, (nonfinite a u).2 = (nonfinite a' u).2) ->
  (forall w w', w_res w = w_res w' -> (newton w).2 = (newton w').2) ->
  (forall ph w w' xo x, phi = Some ph -> (ph w xo x).1.2 = (ph w' xo x).1.2 /\ (ph w xo x).2 = (ph w' xo x).2) ->
  no_memory (@w_update part M E ech nonfinite) (fun w _ => w_err w) newton phi (fun w w' => w_res w = w_res w' /\ w_err w = w_err w').
Proof.
move=> HE HF HN HP; split; last split; last split=> //.
- move=> w w' u; rewrite /w_update.
  case: (finite (ux u)) => [x|]; last by have := HF (w_e w) (w_e w') u; case: (nonfinite _ _) => a e; case: (nonfinite _ _) => a' e' /= ->.
  case: (finite (up u)) => [p|]; last by have := HF (w_e w) (w_e w') u; case: (nonfinite _ _) => a e; case: (nonfinite _ _) => a' e' /= ->.
  case: (finite (uw u)) => [y|]; last by have := HF (w_e w) (w_e w') u; case: (nonfinite _ _) => a e; case: (nonfinite _ _) => a' e' /= ->.
  have := HE (w_e w) (w_e w') (m_Wx M x p) (m_Wp M x p) (rf_weight (m_data M x) (vec x)).
  by case: (ech _ _ _ _) => a q; case: (ech _ _ _ _) => a' q' /= ->; case: rf_update.
- by move=> w w' _ [].
- by move=> w w' [H _]; exact: HN.
Qed.

(** ** C105 for Solver::solve: the values st1 returned by the first call are finite, and the matrices of the master problem are
    not spoiled by the first call (C56, C100). *)
Theorem C105_resume_partial : forall part E ech nonfinite newton phi n1 n2 o1 o2 f1 f2 f3 oAx oAp obc f1' f2' f3' oAx' oAp' obc'
    (w w' : world E) hist hist' m m' P st r1 st1 r2 st2 x xbg xhg p ye yg ze zg,
  let d := p_dims P in
  (forall a a' Wx Wp wt, (ech a Wx Wp wt).2 = (ech a' Wx Wp wt).2) -> (forall a a' u, (nonfinite a u).2 = (nonfinite a' u).2) ->
  (forall w w', w_res w = w_res w' -> (newton w).2 = (newton w').2) ->
  (forall ph w w' xo x, phi = Some ph -> (ph w xo x).1.2 = (ph w' xo x).1.2 /\ (ph w xo x).2 = (ph w' xo x).2) ->
  conforming P -> ordered_bounds P -> state_sized d st -> length (s_p st) = d_p d ->
  (forall w, sized (nxbar d) (d_p d) (ny d + nz d) (newton w).2) ->
  (forall ph w xo x, phi = Some ph -> length x = nxbar d -> length (ph w xo x).2 = nxbar d) ->
  o_tol o2 = o_tol o1 -> o_fix o2 = o_fix o1 ->
  update_master f1' f2' f3' oAx' oAp' obc' P = update_master f1 f2 f3 oAx oAp obc P ->
  u_solve part ech nonfinite newton phi None n1 o1 f1 f2 f3 oAx oAp obc w hist m P st = Some (r1, st1) -> r_succeeded r1 = false ->
  starts_at st1 x xbg xhg p ye yg ze zg ->
  u_solve part ech nonfinite newton phi None n2 o2 f1' f2' f3' oAx' oAp' obc' w' hist' m' P st1 = Some (r2, st2) ->
  exists r st', u_solve part ech nonfinite newton phi None (Nat.add n1 n2) (Options (Nat.add (r_iterations r1) (o_maxiters o2)) (o_tol o1) (o_fix o1))
      f1 f2 f3 oAx oAp obc w hist m P st = Some (r, st') /\
    (r_succeeded r = r_succeeded r2 /\ r_iterations r = Nat.add (r_iterations r1) (r_iterations r2) /\ same_values st' st2 \/
     r_succeeded r = true /\ r_iterations r = r_iterations r1 /\ st' = st1).
Proof.
move=> part E ech nonfinite newton phi n1 n2 o1 o2 f1 f2 f3 oAx oAp obc f1' f2' f3' oAx' oAp' obc' w w' hist hist' m m' P st r1 st1 r2 st2 x xbg xhg p ye yg ze zg d.
move=> HE HF HW HPM C O SS Lp HN HP TL F EU.
rewrite /u_solve EU; case U: (update_master f1 f2 f3 oAx oAp obc P) => [M|//].
case S1: m_solve => [[r0 s1]|//] [ER ES]; rewrite -{}ES {st1}; rewrite {r0}ER in S1 => OK.
have GB := good_bounds_of C O U.
have EM : [/\ ms_nx M = nxbar d, ms_np M = d_p d, ms_ny M = ny d & ms_nz M = nz d] by rewrite (Meq _ _ _ _ _ _ _ _ U).
have [Enx Enp Eny Enz] := EM.
rewrite Enx Enp in GB.
have SZ : sized (nxbar d) (d_p d) (ny d + nz d) (s_u s1).
  have [SX [SY1 [SY2 [SY3 [SY4 [SY5 SY6]]]]]] := SS.
  apply: (final_sized GB _ HN HP S1).
  by rewrite /sized /= !List.app_length SX SY1 SY2 SY3 SY4 SY5 SY6 /nxbar /ny /nz -!plusE; repeat split; try lia.
have [_ [IX IP]] := @C47_bounds _ _ _ _ _ _ _ _ _ _ _ _ _ _ _ _ _ _ _ GB S1.
have := SZ; rewrite /sized; case US: (s_u s1) => [sx sp sw] [L1 [L2 L3]]; rewrite /= in L1 L2 L3.
pose mm := finalize (to_master m st) (s_w s1) (UVec sx sp sw).
have T1 : t_x mm = sx by rewrite /mm /finalize; case: w_res.
have T2 : t_p mm = sp by rewrite /mm /finalize; case: w_res.
have T3 : t_w mm = sw by rewrite /mm /finalize; case: w_res.
have [||CX [CW [CP [CS _]]]] := C59_complete _ part d mm st.
- by rewrite T1 L1 /nxbar.
- by rewrite T3 L3 /ny /nz ?plusE; lia.
rewrite -/d -/mm => -[E1 [E3 [E4 [E2 [E5 [E6 [E7 E8]]]]]]].
have EU1 : UVec (t_x (to_master m' (of_master part d mm st))) (t_p (to_master m' (of_master part d mm st))) (t_w (to_master m' (of_master part d mm st))) = s_u s1.
  by rewrite US /to_master; cbn [t_x t_p t_w]; rewrite CX CP CW T1 T2 T3.
rewrite {}EU1.
rewrite E1 E3 E4 -!List.map_app T1 in CX; rewrite E5 E6 E7 E8 -!List.map_app T3 in CW; rewrite E2 T2 in CP.
case S2: m_solve => [[r0 s2]|//] [ER <-]; rewrite {r0}ER in S2.
have [B1 [B2 [B3 B4]]] := GB.
have CL : clampu (m_bounds M) (s_u s1) = s_u s1.
  rewrite US /clampu; cbn [ux up uw]; move: IX IP L1 L2; rewrite US; cbn [ux up uw]; rewrite -CX -CP !List.map_length => IX IP L1 L2.
  rewrite !clampv_id // ?L1 ?L2 ?B1 ?B2 -?(Forall2_len _ _ _ B3) -?(Forall2_len _ _ _ B4) //.
  - by apply: inbox_within IP; rewrite ?L2 ?B2 -?(Forall2_len _ _ _ B4).
  - by apply: inbox_within IX; rewrite ?L1 ?B1 -?(Forall2_len _ _ _ B3).
have [r [s [S [R1 R2]]]] := C105_resume_any_partial (u_memory part M HE HF HW HPM) TL F S1 OK CL S2.
have [C1|C1] : nltb (s_err s1) (o_tol o1) = true \/ nltb (s_err s1) (o_tol o1) = false by case: (nltb _ _); [left | right].
  have [Q1 [Q2 [Q3 Q4]]] := R2 C1; exists r; eexists; split; first by rewrite /m_solve S.
  by right; split=> //; split=> //; rewrite Q3 Q4 US.
have [Q1 [Q2 [Q3 [Q4 _]]]] := R1 C1; exists r; eexists; split; first by rewrite /m_solve S.
by left; split=> //; split=> //; rewrite /same_values /finalize Q3 Q4; case: (w_res (s_w s2)).
Qed.
Print Assumptions C105_resume_partial.

(** The hypotheses about the components are met, for example, by an echelonizer that starts anew at every point and the Newton
    directions of the code. *)
Example C105_components_case : forall lu srt th sigma M lus eps meth du,
  let ech := fun (a : list (rawmx RF * rawvec RF)) Wx Wp wt => (a, (the_ech lu srt th sigma M nil Wx Wp wt).2) in
  let newton := w_newton M lus eps meth (fun w : world (list (rawmx RF * rawvec RF)) => (w, du)) in
  (lu_correct lu -> sort_correct srt -> 0 <= th -> ech_contract M ech) /\
  (forall a a' Wx Wp wt, (ech a Wx Wp wt).2 = (ech a' Wx Wp wt).2) /\
  (forall w w', w_res w = w_res w' -> (newton w).2 = (newton w').2).
Proof.
move=> lu srt th sigma M lus eps meth du ech newton; split; last split=> //.
  move=> LC SC th0 a x p wt W0; exact: (@C83_contract lu srt th sigma M LC SC th0 nil x p wt W0).
by move=> w w' E; rewrite /newton /w_newton E; case: (w_res w') => [r|//]; case: newton_dir.
Qed.
