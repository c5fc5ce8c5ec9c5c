(** Property theorem C100: Solver objects that have been used before. *)
From Coq Require Import List PeanoNat Permutation Reals Lra Lia.
From mathcomp Require Import all_ssreflect all_fingroup all_algebra.
From Verif Require Import Num Num_facts Index_model Index_spec Num_rf R_rf Echelon_model Echelon_spec LU_model Linear_model Canonical_model Canonical_spec.
From Verif Require Import LU_spec Linear_spec P_Linear P_LU Residual_model Residual_spec EchelonO_model EchelonO_spec Loop_model Loop_spec P_Loop Wrapper_model Wrapper_spec Wrapper_proofs P_Wrapper End_model End_spec End_proofs P_End Newton_model P_EchelonO P_Status P_Newton RestartEx_proofs P_Restart Reuse_model Reuse_spec Reuse_proofs ReuseEx_proofs.
Set Implicit Arguments.
Unset Strict Implicit.
Unset Printing Implicit Defensive.
Import Order.TTheory GRing.Theory Num.Theory.
Local Open Scope ring_scope.
Local Notation "l ++ l'" := (List.app l l') : seq_scope.

(** ** C100.  Solvers with any two histories - new, used for other problems, left by an exception - give the same
    outcome, the same result and the same values, if the problem does not have both linear equality and linear inequality
    constraints.  Missing: problems with both (see C100_refuted). *)
Theorem C100_same_partial : forall part lu srt th sigma nonfinite lus eps meth failed q0 phi check fuel o k k' g g' P st,
  used k -> used k' -> fresh_for (p_dims P) g -> fresh_for (p_dims P) g' ->
  d_be (p_dims P) = 0%N \/ d_bg (p_dims P) = 0%N ->
  agree (solver_solve part lu srt th sigma nonfinite lus eps meth failed q0 phi check fuel o k g P st)
        (solver_solve part lu srt th sigma nonfinite lus eps meth failed q0 phi check fuel o k' g' P st).
Proof.
move=> part lu srt th sigma nonfinite lus eps meth failed q0 phi check fuel o k k' g g' P st K K' G G' B.
have E := master_any K K' G G' B.
rewrite /solver_solve E; case U: update_master => [M|//].
rewrite /u_solve E U.
set run := m_solve _ _ _ _ _ _ _ _ _ (World _ _ (k_res k) _) _ _; set run' := m_solve _ _ _ _ _ _ _ _ _ (World _ _ (k_res k') _) _ _.
have EU : UVec (t_x (to_master (k_m k) st)) (t_p (to_master (k_m k) st)) (t_w (to_master (k_m k) st)) =
          UVec (t_x (to_master (k_m k') st)) (t_p (to_master (k_m k') st)) (t_w (to_master (k_m k') st)) by [].
case R: run => [[r s]|]; last first.
  case R': run' => [[r s]|//].
  have [s' [S' _]] := m_solve_any (k_res k) (k_err k) (k_hist k) R'.
  by move: R; rewrite /run EU S'.
have [s' [S' [Eu Ew]]] := m_solve_any (k_res k') (k_err k') (k_hist k') R.
rewrite /run' -EU S' /=; split=> //.
by rewrite /finalize Eu Ew; case: (w_res (s_w s)).
Qed.
Print Assumptions C100_same_partial.

(** If the values returned are finite, the whole states are the same: also the stability measures and the sets of indices. *)
Theorem C100_state_partial : forall part lu srt th sigma nonfinite lus eps meth failed q0 phi check fuel o k k' g g' P st r st'
    x xbg xhg p ye yg ze zg,
  let d := p_dims P in
  partition_contract part -> lu_correct lu -> sort_correct srt -> 0 <= th -> conforming P -> ordered_bounds P ->
  state_sized d st -> length (s_p st) = d_p d ->
  (forall w, sized (nxbar d) (d_p d) (ny d + nz d) (failed w).2) ->
  (forall ph w xo x, phi = Some ph -> length x = nxbar d -> length (snd (ph w xo x)) = nxbar d) ->
  used k -> used k' -> fresh_for d g -> fresh_for d g' -> d_be d = 0%N \/ d_bg d = 0%N ->
  solver_solve part lu srt th sigma nonfinite lus eps meth failed q0 phi check fuel o k g P st = Some (r, st') ->
  starts_at st' x xbg xhg p ye yg ze zg ->
  solver_solve part lu srt th sigma nonfinite lus eps meth failed q0 phi check fuel o k' g' P st = Some (r, st').
Proof.
move=> part lu srt th sigma nonfinite lus eps meth failed q0 phi check fuel o k k' g g' P st r st' x xbg xhg p ye yg ze zg d.
move=> HC LC SC th0 C O SS Lp HF HP K K' G G' B.
have E := master_any K K' G G' B.
rewrite /solver_solve E; case U: update_master => [M|//].
rewrite /u_solve E U.
have EM : [/\ ms_nx M = nxbar d, ms_np M = d_p d, ms_ny M = ny d & ms_nz M = nz d] by rewrite (Meq _ _ _ _ _ _ _ _ U).
have [Enx Enp Eny Enz] := EM.
case S: m_solve => [[r0 s]|//] [ER ES]; rewrite -{}ES {st'}; rewrite {r0}ER in S.
move=> [E1 [E3 [E4 [E2 [E5 [E6 [E7 E8]]]]]]].
have HN w : sized (nxbar d) (d_p d) (ny d + nz d) (w_newton M lus eps meth failed w).2.
  rewrite /w_newton; case: (w_res w) => [rr|]; last exact: HF.
  case: (newton_dir _ _ _ _ _ _) => [du|]; last exact: HF.
  by rewrite /sized; cbn [snd ux up uw]; rewrite !List.map_length !List.seq_length Enx Enp Eny Enz.
have GB := good_bounds_of C O U.
have SZ : sized (nxbar d) (d_p d) (ny d + nz d) (s_u s).
  have [SX [SY1 [SY2 [SY3 [SY4 [SY5 SY6]]]]]] := SS.
  rewrite Enx Enp in GB.
  apply: (final_sized GB _ HN HP S).
  by rewrite /sized /= !List.app_length SX SY1 SY2 SY3 SY4 SY5 SY6 /nxbar /ny /nz -!plusE; repeat split; try lia.
have := SZ; rewrite /sized; case US: (s_u s) => [sx sp sw] [L1 [L2 L3]]; rewrite /= in L1 L2 L3.
rewrite US in E1 E2 E3 E4 E5 E6 E7 E8.
pose m' := finalize (to_master (k_m k) st) (s_w s) (UVec sx sp sw).
have T1 : t_x m' = sx by rewrite /m' /finalize; case: w_res.
have T2 : t_p m' = sp by rewrite /m' /finalize; case: w_res.
have T3 : t_w m' = sw by rewrite /m' /finalize; case: w_res.
have [||CX [CW [CP [CS _]]]] := C59_complete _ part d m' st.
- by rewrite T1 L1 /nxbar.
- by rewrite T3 L3 /ny /nz ?plusE; lia.
rewrite E1 E3 E4 -!List.map_app T1 in CX; rewrite E5 E6 E7 E8 -!List.map_app T3 in CW; rewrite E2 T2 in CP.
have HE : ech_contract M (the_ech lu srt th sigma M) by exact: C83_contract.
have [[w' Ew] _] := @C49_success_sound _ _ _ _ _ _ _ _ _ _ _ _ _ _ _ _ S.
have [q [rr [_ _ _ R1 _]]] := w_update_fin nonfinite w' (x ++ xbg ++ xhg) p (ye ++ yg ++ ze ++ zg) HC HE.
have {}R1 : w_res (s_w s) = Some rr by rewrite Ew US -CX -CW -CP.
have [s' [S' [Eu Es]]] := m_solve_any (k_res k') (k_err k') (k_hist k') S.
have EU : UVec (t_x (to_master (k_m k) st)) (t_p (to_master (k_m k) st)) (t_w (to_master (k_m k) st)) =
          UVec (t_x (to_master (k_m k') st)) (t_p (to_master (k_m k') st)) (t_w (to_master (k_m k') st)) by [].
by rewrite -EU S' /finalize Eu Es US R1.
Qed.
Print Assumptions C100_state_partial.

(** Memories that meet the hypotheses: of a new Solver, and of one that was used for the first problem below *)
Lemma used100 k g M res err hist m : used k -> fresh_for (p_dims P100a) g ->
  update_master (g_Ax g) (g_Ap g) (g_bc g) (k_Ax k) (k_Ap k) (k_bc k) P100a = Some M -> used (Memory (ms_Ax M) (ms_Ap M) (ms_bc M) res err hist m).
Proof. by move=> K G U; apply: (used_call res err hist m K G U). Qed.

Definition g100 : fresh := Fresh (fun _ => R0) (fun _ => R0) (fun _ => R0).
Definition m100 : mstate xreal := MState nil nil nil nil nil nil nil nil nil nil.
Definition new100 : memory := Memory no_matrix no_matrix no_matrix None XNaN nil m100.
Definition old100 : memory := Memory (master_Ax (g_Ax g100) no_matrix (p_dims P100a) (p_Aex P100a) (p_Agx P100a))
  (master_Ap (g_Ap g100) no_matrix (p_dims P100a) (p_Aep P100a) (p_Agp P100a)) (master_bc (g_bc g100) no_matrix (p_dims P100a) (p_bec P100a) (p_bgc P100a)) None XPInf (XPInf :: nil) m100.
(** With these memories the problem of C98_refuted is solved in the same way: to x = (8, 0). *)
Example C100_case : used new100 /\ used old100 /\ k_Ax new100 <> k_Ax old100 /\ fresh_for (p_dims (P98 1)) g100 /\
  conforming (P98 1) /\ ordered_bounds (P98 1) /\ d_bg (p_dims (P98 1)) = 0%N /\
  forall part lu srt th sigma nonfinite lus meth failed q0 check fuel st y k,
    partition_contract part -> lu_correct lu -> sort_correct srt -> (0 : RF) <= th -> (forall n (A : 'M[RF]_n), full_piv A (lus n A)) -> meth <> Rangespace ->
    starts_at st (IZR (-2) :: R0 :: nil) nil nil nil (y :: nil) nil nil nil -> k = new100 \/ k = old100 ->
    exists r st', solver_solve part lu srt th sigma nonfinite lus 0 meth failed q0 None check (S fuel) (Options 5 (XF R1) false) k g100 (P98 1) st = Some (r, st') /\
      starts_at st' (IZR 8 :: R0 :: nil) nil nil nil (R0 :: nil) nil nil nil.
Proof.
have N : used new100 by apply: used_new.
split; first exact: N.
split.
  have [M U] : exists M, update_master (g_Ax g100) (g_Ap g100) (g_bc g100) (k_Ax new100) (k_Ap new100) (k_bc new100) P100a = Some M by eexists; reflexivity.
  by have := @used100 new100 g100 M None XPInf (XPInf :: nil) m100 N ltac:(by []) U; rewrite (Meq _ _ _ _ _ _ _ _ U).
split; first by move=> H; move: (f_equal (@m_rows R) H).
split; first by [].
split; first by repeat split.
split; first by split=> //; split; repeat constructor.
split; first by [].
move=> part lu srt th sigma nonfinite lus meth failed q0 check fuel st y k HC LC SC th0 LUS NR ST _.
have [M U] : exists M, update_master (g_Ax g100) (g_Ap g100) (g_bc g100) (k_Ax k) (k_Ap k) (k_bc k) (P98 1) = Some M by eexists; reflexivity.
have T : Rle (Rmult 1 (Rdiv 397 400)) 1 by lra.
have [r [st' [S [_ [_ H]]]]] := @first98 part lu srt th sigma nonfinite lus meth failed check fuel (Options 5 (XF R1) false) _ _ _ _ _ _ (World nil (q0 M) (k_res k) (k_err k)) (k_hist k) (k_m k) R1 M st y R1
  HC LC SC th0 LUS NR Rlt_0_1 U ST erefl T ltac:(cbn; lia).
by exists r, st'; split=> //; rewrite /solver_solve U.
Qed.

Lemma block_after (f1 f2 f3 f1' f2' f3' : nat -> R) (oAx oAp obc oAp' obc' : mat R) M M' :
  update_master f1 f2 f3 oAx oAp obc P100a = Some M -> update_master f1' f2' f3' (ms_Ax M) oAp' obc' P100 = Some M' -> mget (ms_Ax M') 0 1 = Ropp R1.
Proof.
move=> U; rewrite (Meq _ _ _ _ _ _ _ _ U) => U'; rewrite (Meq _ _ _ _ _ _ _ _ U'); cbn [ms_Ax].
by rewrite {2}/master_Ax /mresize; case: (Nat.eqb _ (Nat.mul (m_rows oAx) (m_cols oAx))).
Qed.
Lemma block_new (f1' f2' f3' : nat -> R) (oAp' obc' : mat R) M' : f1' 2%N = R0 ->
  update_master f1' f2' f3' no_matrix oAp' obc' P100 = Some M' -> mget (ms_Ax M') 0 1 = R0.
Proof. by move=> F U'; rewrite (Meq _ _ _ _ _ _ _ _ U'). Qed.

(** With both kinds of constraints it is not so.  The second problem asks for x = 1 and x >= 0.  A new solver whose memory
    is zero finds x = 1.  A solver that was used before for the first problem - or left by an exception while solving
    it - reports success as well, at x = 1/2: the constraint is violated, because the entries of Ax for the equality constraints and the slack variables of the
    inequality constraints are never written (Solver.cpp:261-266, C56) and Matrix::resize keeps those of the first problem. *)
Theorem C100_refuted : exists P0 P, conforming P0 /\ conforming P /\ ordered_bounds P0 /\ ordered_bounds P /\
  (forall x, length x = 1%N -> (user_feasible P x nil <-> x = R1 :: nil)) /\
  forall part lu srt th sigma nonfinite lus meth failed q0 check fuel o tol st a b y0 y1 k g M res err hist m k0 g0,
    partition_contract part -> lu_correct lu -> sort_correct srt -> 0 <= th -> (forall n (A : 'M[RF]_n), full_piv A (lus n A)) -> meth <> Rangespace ->
    starts_at st (a :: nil) (b :: nil) nil nil (y0 :: nil) (y1 :: nil) nil nil -> Rle b 0 ->
    o_tol o = XF tol -> Rlt 0 tol -> (1 <= o_maxiters o)%coq_nat ->
    used k -> fresh_for (p_dims P0) g -> update_master (g_Ax g) (g_Ap g) (g_bc g) (k_Ax k) (k_Ap k) (k_bc k) P0 = Some M ->
    new_memory k0 -> fresh_for (p_dims P) g0 -> g_Ax g0 2 = R0 ->
    let k1 := Memory (ms_Ax M) (ms_Ap M) (ms_bc M) res err hist m in
    used k1 /\
    (exists r st', solver_solve part lu srt th sigma nonfinite lus 0 meth failed q0 None check (S fuel) o k0 g0 P st = Some (r, st') /\
       r_succeeded r = true /\ s_x st' = XF R1 :: nil) /\
    (exists r st', solver_solve part lu srt th sigma nonfinite lus 0 meth failed q0 None check (S fuel) o k1 g0 P st = Some (r, st') /\
       r_succeeded r = true /\ s_x st' = XF (Rdiv 1 2) :: nil).
Proof.
exists P100a, P100; do 2![split; first by repeat split].
do 2![split; first by split=> //; split; repeat constructor].
split.
  case=> [|x [|]] // _; rewrite /user_feasible /P100; cbn [p_dims d_be d_bg d_he d_hg d_p d_x p_xlower p_xupper p_plower p_pupper p_be p_bg p_Aex p_Agx p_Aep p_Agp]; rewrite /lin; cbn [Wrapper_spec.sum]; rewrite /at_ /=; split.
    by move=> [/(_ 0%N ltac:(lia)) /= H _]; congr cons; lra.
  move=> [->]; do 6?split; try (by move=> i Hi; exfalso; lia); try by case=> [|i] Hi /=; [lra | exfalso; lia].
  - by case=> [|i] //= H; exfalso; lia.
  - by case=> [|i] //= H; exfalso; lia.
move=> part lu srt th sigma nonfinite lus meth failed q0 check fuel o tol st a b y0 y1 k g M res err hist m k0 g0.
move=> HC LC SC th0 LUS NR ST b0 TOL T MX K G U N G0 Z k1.
split; first exact: used100 K G U.
split.
- have [NA [NP [NB _]]] := N.
  have [M' U'] : exists M', update_master (g_Ax g0) (g_Ap g0) (g_bc g0) (k_Ax k0) (k_Ap k0) (k_bc k0) P100 = Some M' by eexists; reflexivity.
  have EV : mget (ms_Ax M') 0 1 = R0 by rewrite NA in U'; exact: (block_new Z U').
  have [r [st' [S [OK [_ H]]]]] := @run100 R0 _ _ _ _ _ _ M' (Rle_refl _) U' EV part HC lu srt th sigma LC SC th0 nonfinite lus meth failed check fuel o
    (World nil (q0 M') (k_res k0) (k_err k0)) (k_hist k0) (k_m k0) st tol a b y0 y1 LUS NR b0 ST TOL T MX.
  exists r, st'; split; first by rewrite /solver_solve U'; exact: S.
  split=> //; have [-> _] := H => /=; congr (XF _ :: nil); field.
- have [M' U'] : exists M', update_master (g_Ax g0) (g_Ap g0) (g_bc g0) (k_Ax k1) (k_Ap k1) (k_bc k1) P100 = Some M' by eexists; reflexivity.
  have EV : mget (ms_Ax M') 0 1 = Ropp R1 by exact: (block_after U U').
  have v0 : Rle (Ropp R1) 0 by lra.
  have [r [st' [S [OK [_ H]]]]] := @run100 (Ropp R1) _ _ _ _ _ _ M' v0 U' EV part HC lu srt th sigma LC SC th0 nonfinite lus meth failed check fuel o
    (World nil (q0 M') (k_res k1) (k_err k1)) (k_hist k1) (k_m k1) st tol a b y0 y1 LUS NR b0 ST TOL T MX.
  exists r, st'; split; first by rewrite /solver_solve U'; exact: S.
  split=> //; have [-> _] := H => /=; congr (XF _ :: nil); field.
Qed.
Print Assumptions C100_refuted.
