(** Property theorems C87: convergence of the iterations. *)
From Coq Require Import List PeanoNat Permutation Reals Lra Lia.
From mathcomp Require Import all_ssreflect all_fingroup all_algebra.
From Verif Require Import Num Num_facts Index_model Index_spec Index_proofs Num_rf R_rf LU_model LU_spec Linear_model Linear_spec Canonical_model Canonical_spec.
From Verif Require Import ResErr_model Residual_model Residual_spec Residual_proofs P_Residual EchelonO_model EchelonO_spec EchelonOEx_proofs.
From Verif Require Import Loop_model Loop_spec Loop_proofs P_Loop Wrapper_model Wrapper_spec Wrapper_proofs P_Wrapper Stay_proofs End_model End_spec Near_proofs End_proofs.
From Verif Require Import Newton_model Newton_spec Newton_proofs P_Newton P_End P_EchelonO Pivot_spec Pivot_proofs Indep_proofs Iterate_proofs Status_spec SensW_spec SensW_proofs Converge_spec Converge_proofs ConvergeEx_proofs Local_proofs LocalW_proofs SensWEx_proofs P_SensW P_SensWEx LocalEx_proofs.
Set Implicit Arguments.
Unset Strict Implicit.
Unset Printing Implicit Defensive.
Import Order.TTheory GRing.Theory Num.Theory.
Local Open Scope ring_scope.
Local Notation "l ++ l'" := (List.app l l') : seq_scope.

(** ** Curved constraints.  min x1 + x0^2/2 subject to x1 = x0^2.  The origin is the only minimum, the
    second-order sufficient conditions hold there with independent constraint gradients, and all
    derivatives are right.  The Newton equations leave out the second derivatives of the constraints, and
    x0 is multiplied by -2 in every iteration: however close to the origin the calculation starts
    (off x0 = 0) and however many iterations are allowed, it fails, for tolerances up to 6 |x0|. *)
Theorem C87_curved_refuted :
  conforming P87 /\ ordered_bounds P87 /\ correct_derivatives P87 /\ user_kkt P87 (R0 :: R0 :: nil) nil nil nil (IZR (-1) :: nil) nil /\
  licq P87 (R0 :: R0 :: nil) nil nil nil /\
  (forall x, c_val (value (uhe P87) x nil nil) 0 = R0 ->
     o_f (ovalue (uf P87) x nil nil) = Rplus (o_f (ovalue (uf P87) (R0 :: R0 :: nil) nil nil)) (Rmult (Rdiv 3 2) (Rmult (at_ x 0) (at_ x 0)))) /\
  forall part lu srt th sigma nonfinite lus meth failed fuel o f1 f2 f3 oAx oAp obc w0 hist m M st a b z tol,
    partition_contract part -> lu_correct lu -> sort_correct srt -> 0 <= th -> (forall n (A : 'M[RF]_n), full_piv A (lus n A)) -> meth <> Rangespace ->
    block_unspoiled f1 oAx (p_dims P87) -> update_master f1 f2 f3 oAx oAp obc P87 = Some M ->
    starts_at st (a :: b :: nil) nil nil nil nil nil (z :: nil) nil ->
    o_tol o = XF tol -> Rle tol (Rmult 6 (Rabs a)) -> (o_maxiters o < fuel)%coq_nat ->
    exists r st' b', 
      u_solve part (the_ech lu srt th sigma M) nonfinite (w_newton M lus 0 meth failed) None None fuel o f1 f2 f3 oAx oAp obc w0 hist m P87 st = Some (r, st') /\
      r_succeeded r = false /\ s_x st' = XF (Rmult (pow (IZR (-2)) (r_iterations r)) a) :: XF b' :: nil /\ r_iterations r = S (o_maxiters o).
Proof.
split; first by repeat split.
split; first by split=> //; split; repeat constructor.
split; first exact: derivatives87.
split; first exact: kkt87.
split; first exact: licq87.
split; first exact: minimum87.
move=> part lu srt th sigma nonfinite lus meth failed fuel o f1 f2 f3 oAx oAp obc w0 hist m M st a b z tol.
move=> HC LC SC th0 LUS NR B U [E1 [E2 [E3 [E4 [E5 [E6 [E7 E8]]]]]]] TOL T6 FU.
have CF : conforming P87 by repeat split.
have OB : ordered_bounds P87 by split=> //; split; repeat constructor.
have G := good_bounds_of CF OB U.
have EM : [/\ ms_nx M = 2%N, ms_np M = 0%N, ms_ny M = 0%N & ms_nz M = 1%N] by rewrite (Meq _ _ _ _ _ _ _ _ U).
have [Enx Enp Eny Enz] := EM.
have HE : ech_contract M (the_ech lu srt th sigma M) by exact: C83_contract.
have W0 X : m_Wx M X nil 0%N 0%N = Rmult (IZR (-2)) (at_ (firstn 2 X) 0) by rewrite /m_Wx Eny /= /m_h (Meq _ _ _ _ _ _ _ _ U).
have W1 X : m_Wx M X nil 0%N 1%N = R1 by rewrite /m_Wx Eny /= /m_h (Meq _ _ _ _ _ _ _ _ U).
pose lo : list xreal := XNInf :: XNInf :: nil; pose hi : list xreal := XPInf :: XPInf :: nil.
have BD : [/\ ms_xlower M = lo, ms_xupper M = hi, ms_plower M = nil & ms_pupper M = nil] by rewrite (Meq _ _ _ _ _ _ _ _ U).
have [Exl Exu Epl Epu] := BD.
pose I k (x p y : list R) := exists v zz, [/\ x = Rmult (pow (IZR (-2)) k) a :: v :: nil, p = nil, y = zz :: nil & k = 0%N \/ zz = IZR (-1)].
have S2 (f : nat -> RF) : \sum_(j < 2) f j = f 0%N + f 1%N by rewrite !big_ord_recl big_ord0 addr0.
have S1 (f : nat -> RF) : \sum_(j < 0 + 1) f j = f 0%N by rewrite big_ord_recl big_ord0 addr0.
have H00 X i j : (i < 2)%N -> (j < 2)%N -> eHxx (m_evals M X nil) i j = if (i == 0%N) && (j == 0%N) then 1 else 0.
  by rewrite /= /m_f (Meq _ _ _ _ _ _ _ _ U) /=; case: i => [|[|i]] // _; case: j => [|[|j]].
have FREE u v zz q r : let x := u :: v :: nil in
  echelon_of (ms_nx M) (ms_np M) (ms_ny M + ms_nz M) (m_evals M x nil) (m_Wx M x nil) (m_Wp M x nil) q ->
  rf_update part (ms_nx M) (ms_np M) (ms_ny M) (ms_nz M) (m_data M x) (m_evals M x nil) (m_Wx M x nil) (m_Wp M x nil) q (MVec (vec x) (vec nil) (vec (zz :: nil))) = Some r ->
  forall j, (j < 2)%N -> ~ In j (status_ju (rst r)).
  move=> x HQ RU j jl; set e := m_evals M x nil in HQ RU *; set uu := MVec _ _ _ in RU.
  have [_ _ _ JU] := @rf_ju _ _ _ _ _ _ (m_data M x) _ _ _ _ uu HC HQ.
  have RS : rst r = rf_stability part (ms_nx M) (ms_ny M) (ms_nz M) (m_data M x) e (m_Wx M x nil) (qjb q) uu.
    by move: RU; rewrite /rf_update; case: canonicalize => // c [<-].
  rewrite RS => /JU; rewrite /= Exl Exu /vec => -[[H _]|[H _]]; case: j jl H => [|[|j]] //= _; lra.
have READY u v zz : newton_ready part M (the_ech lu srt th sigma M) lus 0 meth (u :: v :: nil) nil (zz :: nil).
  move=> h wt WT q.
  have IE : independent_equalities P87 (u :: v :: nil) nil by apply: (licq_independent _ _ nil nil); exact: licq87.
  have LQ : length (qjb q) = (ms_ny M + ms_nz M)%N.
    by rewrite Eny Enz; exact: (@the_ech_full lu srt th sigma _ _ _ _ _ _ P87 M (u :: v :: nil) nil nil nil h wt LC SC th0 U B erefl erefl erefl IE).
  split=> // r RU.
  have HQ := HE h (u :: v :: nil) nil wt.
  have FR := FREE u v zz q r HQ RU.
  split; last first.
    by rewrite /newton_resolved; case: (meth) NR => // _ k k0; rewrite mul0r normr_gt0.
  move=> du; rewrite Enx Enp Eny Enz => -[_ N2 _ N4].
  have Q0 := N2 0%N isT (FR 0%N isT); have Q1 := N2 1%N isT (FR 1%N isT); have Q2 := N4 0%N isT.
  move: Q0 Q1 Q2.
  rewrite (S2 (fun j => eHxx _ 0%N j * mx du j)) (S2 (fun j => eHxx _ 1%N j * mx du j)) (S2 (fun j => m_Wx _ _ _ 0%N j * mx du j)).
  rewrite (S1 (fun l => m_Wx _ _ _ l 0%N * mw du l)) (S1 (fun l => m_Wx _ _ _ l 1%N * mw du l)) !big_ord0 !H00 // W1 /=.
  rewrite !mul0r !add0r !mul1r !addr0 => Q0 D; rewrite D mulr0 addr0 in Q0; rewrite Q0 mulr0 add0r => Q2.
  by split=> [[|[|i]]|k|[|l]].
have IN k x p y : I k x p y -> length x = 2%N /\ length p = 0%N /\ length y = 1%N /\ all_inside (xlo (m_bounds M)) (xhi (m_bounds M)) x /\ all_inside (plo (m_bounds M)) (phi_ (m_bounds M)) p.
  move=> [v [zz [-> -> -> _]]]; do 3![split=> //]; split; last by move=> i /= H; exfalso; lia.
  by rewrite /= Exl Exu => -[|[|i]] //= H; exfalso; lia.
have NW k x p y w : I k x p y -> exists x' p' y' dx dp dy,
  I k.+1 x' p' y' /\ (w_newton M lus 0 meth failed (w_update part M (the_ech lu srt th sigma M) nonfinite w (fin x p y))).2 = fin dx dp dy /\
  length dx = 2%N /\ length dp = 0%N /\ length dy = 1%N /\
  (forall i, (i < 2)%coq_nat -> Rplus (List.nth i x R0) (List.nth i dx R0) = List.nth i x' R0) /\
  (forall i, (i < 0)%coq_nat -> Rplus (List.nth i p R0) (List.nth i dp R0) = List.nth i p' R0) /\
  (forall i, (i < 1)%coq_nat -> Rplus (List.nth i y R0) (List.nth i dy R0) = List.nth i y' R0).
  move=> [v [zz [-> -> -> _]]]; set u0 := Rmult _ _.
  have [q [r [du [_ HQ RU ED [_ N2 _ _]]]]] := newton_at nonfinite failed HC HE LUS (lexx _) w (READY u0 v zz).
  have FR := FREE _ _ _ _ _ HQ RU.
  rewrite {}ED; move: N2; rewrite Enx Enp Eny Enz => N2.
  have Q0 := N2 0%N isT (FR 0%N isT); have Q1 := N2 1%N isT (FR 1%N isT).
  move: Q0 Q1.
  rewrite (S2 (fun j => eHxx _ 0%N j * mx du j)) (S2 (fun j => eHxx _ 1%N j * mx du j)).
  rewrite (S1 (fun l => m_Wx _ _ _ l 0%N * mw du l)) (S1 (fun l => m_Wx _ _ _ l 1%N * mw du l)) !big_ord0 !H00 //.
  rewrite /lagrangian (S1 (fun l => m_Wx M (u0 :: v :: nil) nil l 0%N * mw _ l)) (S1 (fun l => m_Wx M (u0 :: v :: nil) nil l 1%N * mw _ l)) W0 W1.
  have -> : eg (m_evals M (u0 :: v :: nil) nil) 0%N = u0 by rewrite /= /m_f (Meq _ _ _ _ _ _ _ _ U).
  have -> : eg (m_evals M (u0 :: v :: nil) nil) 1%N = R1 by rewrite /= /m_f (Meq _ _ _ _ _ _ _ _ U).
  rewrite !mul0r !mul1r !add0r !addr0 -[mw (MVec _ _ _) 0%N]/zz -[at_ _ 0]/u0 => Q0 Q1.
  have {}Q1 : Rplus zz (mw du 0%N) = IZR (-1).
    move: Q1; rewrite ?R_mulE ?R_addE ?R_oppE; lra.
  have {}Q0 : Rplus u0 (mx du 0%N) = Rmult (IZR (-2)) u0.
    move: Q0; rewrite ?R_mulE ?R_addE ?R_oppE.
    have -> : mw du 0%N = Rminus (IZR (-1)) zz by lra.
    lra.
  exists (Rmult (pow (IZR (-2)) k.+1) a :: Rplus v (mx du 1%N) :: nil), nil, (IZR (-1) :: nil), (vlist 2 (mx du)), (vlist 0 (mp du)), (vlist 1 (mw du)).
  split; first by exists (Rplus v (mx du 1%N)), (IZR (-1)); split=> //; right.
  split=> //; rewrite !length_vlist; do 3![split=> //]; split; last split.
  + case=> [|[|i]] H; last by exfalso; lia.
    * by rewrite /= Q0 /u0 Rmult_assoc.
    * by [].
  + by move=> i H; exfalso; lia.
  + case=> [|i] H; last by exfalso; lia.
    by rewrite /= Q1.
have I0 : I 0%N (a :: b :: nil) nil (z :: nil).
  by exists b, z; split=> //; [rewrite /= Rmult_1_l | left].
have [r [s [S [IT _]]]] := @C48_terminates_partial _ _ (world (list (rawmx RF * rawvec RF))) (w_update part M (the_ech lu srt th sigma M) nonfinite) (fun w _ => w_err w)
  (w_newton M lus 0 meth failed) None None (m_bounds M) o fuel w0 hist (fin (a :: b :: nil) nil (z :: nil)) FU.
have [IT1 [AR OK]] := @solve_iterates (world (list (rawmx RF * rawvec RF))) (w_update part M (the_ech lu srt th sigma M) nonfinite) (fun w _ => w_err w)
  (w_newton M lus 0 meth failed) (m_bounds M) o 2 0 1 (f_equal (@length _) Exl) (f_equal (@length _) Exu) (f_equal (@length _) Epl) (f_equal (@length _) Epu) I IN NW
  fuel w0 hist _ _ _ r s I0 S.
have [SI [_ [_ [x [p [y [Us [v [zz [Ex Ep Ey Ez]]]]]]]]]] := AR.
have FA : r_succeeded r = false.
  case RS: (r_succeeded r) => //; exfalso.
  have Lx : length x = ms_nx M by rewrite Ex Enx.
  have Lp : length p = ms_np M by rewrite Ep Enp.
  have [rr [_ [[_ [_ [ST _]]] _]]] := solve_near HC HE G Lx Lp S RS TOL Us.
  have {ST} := ST 0%N; rewrite Enx Eny Enz => /(_ ltac:(lia)).
  have Z1 : zz = IZR (-1) by case: Ez => [H|//]; exfalso; move: IT1; rewrite H; lia.
  rewrite Exl Exu Ex Ep Ey Z1 (Meq _ _ _ _ _ _ _ _ U).
  set n := r_iterations r in IT1 *; set u0 := Rmult _ a.
  have LB : Rle (Rmult 2 (Rabs a)) (Rabs u0).
    have A2 : Rabs (IZR (-2)) = IZR 2 by rewrite Rabs_left; lra.
    rewrite /u0 Rabs_mult -RPow_abs A2.
    apply: Rmult_le_compat_r; first exact: Rabs_pos.
    case: (n) IT1 => [|k] H; first lia.
    by have := pow_R1_Rle (IZR 2) k ltac:(lra); rewrite [pow _ k.+1]/=; lra.
  case=> [[H|[[H _]|[H _]]]|[_ [H|H]]] //.
  move: H; rewrite /= /at_ /=; set t := Rplus _ _.
  have -> : t = Rmult 3 u0 by rewrite /t; lra.
  rewrite Rabs_mult (Rabs_right 3); lra.
have IE : r_iterations r = (o_maxiters o).+1.
  move: FA S IT; rewrite /solve; case: loop => // s' FA [Er Es]; move: FA; rewrite -Er /= => /Nat.leb_gt H1 H2; lia.
have EU : UVec (t_x (to_master m st)) (t_p (to_master m st)) (t_w (to_master m st)) = fin (a :: b :: nil) nil (z :: nil).
  by rewrite /to_master /= E1 E2 E3 E4 E5 E6 E7 E8.
exists r, (of_master part (p_dims P87) (finalize (to_master m st) (s_w s) (s_u s)) st), v.
split; first by rewrite /u_solve U EU /m_solve S.
split=> //; split=> //.
by rewrite /of_master Us Ex /finalize; case: w_res.
Qed.
Print Assumptions C87_curved_refuted.

(** The hypotheses are met: a calculation from (1/1000, 0) with tolerance 1/1000 fails, and ends at x0 = 1024/1000 after ten iterations. *)
Example C87_curved_case : exists lu srt lus M r st' b',
  lu_correct lu /\ sort_correct srt /\ (forall n (A : 'M[RF]_n), full_piv A (lus n A)) /\
  u_solve libstdcxx_partition (the_ech lu srt code_threshold 0 M) (fun h _ => (h, XNaN)) (w_newton M lus 0 Nullspace (no_step P87)) None None 10
    (Options 9 (XF (Rinv 1000)) false) mem7 mem7 mem7 old7 old7 old7 w83 nil m0 P87
    (state_of P87 (UPoint (Rinv 1000 :: R0 :: nil) nil nil nil nil nil (IZR (-1) :: nil) nil)) = Some (r, st') /\
  r_succeeded r = false /\ s_x st' = XF (Rdiv 1024 1000) :: XF b' :: nil /\ r_iterations r = 10%N.
Proof.
have [lu LC] := lu_correct_exists RF; have [srt SC] := sort_correct_exists RF; have [lus LUS] := lu_exists RF.
have ct : (0 : RF) < code_threshold /\ (code_threshold : RF) < 1 by split; apply/R_ltP; case: code_threshold_range.
have [M U] : exists M, update_master mem7 mem7 mem7 old7 old7 old7 P87 = Some M by eexists; reflexivity.
have [_ [_ [_ [_ [_ [_ H]]]]]] := C87_curved_refuted.
have [|||||r [st' [b' [E [F [X I]]]]]] := H libstdcxx_partition lu srt code_threshold 0 (fun h _ => (h, XNaN)) lus Nullspace (no_step P87) 10%N (Options 9 (XF (Rinv 1000)) false)
  mem7 mem7 mem7 old7 old7 old7 w83 nil m0 M (state_of P87 (UPoint (Rinv 1000 :: R0 :: nil) nil nil nil nil nil (IZR (-1) :: nil) nil)) (Rinv 1000) R0 (IZR (-1)) (Rinv 1000)
  libstdcxx_contract LC SC (ltW (proj1 ct)) LUS _ _ U _ erefl; try by [].
- by left.
- by rewrite Rabs_right; lra.
exists lu, srt, lus, M, r, st', b'; do 5![split=> //]; split=> //.
by rewrite X I /=; congr (XF _ :: _); lra.
Qed.

(** ** Local convergence.  Let a be a KKT point with strict complementarity (margin mu), condition number kappa of the linearised
    optimality conditions, derivatives that vary by at most L per unit, second derivatives
    of the constraints weighted with the multipliers at most C, residuals that vary by at most K per unit, all within a
    distance rho, and gradients of the active constraints independent and
    told apart by the echelonizer there.  If kappa L rho and kappa C are at most
    1/8, a calculation that starts within rho of a, with the variables and constraints held at a where they are at a, never
    leaves: after k iterations it is within radius k of a, and it succeeds as soon as the residuals that radius
    leaves room for are below the tolerance.  (For linear constraints C = 0; eta = A rm bounds what the removal of round-off
    changes.)  Missing: start with other variables on their bounds, rounding of the arithmetic, rank-deficient constraints,
    the rangespace method. *)
Theorem C87_local_partial : forall part lu srt th sigma nonfinite lus meth failed fuel o f1 f2 f3 oAx oAp obc w0 hist m P M st
    tol a b kappa L C K mu Gamma rm A rho n,
  let d := p_dims P in let rad := radius kappa L C (Rmult A rm) rho in
  partition_contract part -> lu_correct lu -> sort_correct srt -> 0 <= th -> (forall n (A : 'M[RF]_n), full_piv A (lus n A)) -> meth <> Rangespace ->
  conforming P -> ordered_bounds P -> block_unspoiled f1 oAx d -> update_master f1 f2 f3 oAx oAp obc P = Some M ->
  (0 < d_be d + d_bg d + d_he d + d_hg d)%coq_nat ->
  pt_sized d a -> user_kkt P (ptx a) (ptp a) (ptye a) (ptyg a) (ptze a) (ptzg a) -> slacks P (ptx a) (ptp a) (ptbg a) (pthg a) ->
  conditioned P a kappa -> smooth P a L C rho -> lipschitz P a K rho -> margins P a mu -> bases P a M Gamma rm A rho ->
  (forall c, near P a rho c -> licq P (ptx c) (ptbg c) (pthg c) (ptp c)) ->
  (forall c, near P a rho c -> well_pivoted th M (ptx c ++ ptbg c ++ pthg c) (ptp c)) ->
  Rle 0 kappa -> Rle 0 L -> Rle 0 C -> Rle 1 K -> Rle 0 rm -> Rle 0 A -> Rle 0 rho ->
  Rle (Rmult kappa (Rmult L rho)) (Rinv 8) -> Rle (Rmult kappa C) (Rinv 8) -> Rle (Rmult 8 (Rmult kappa (Rmult A rm))) rho ->
  Rlt rho mu -> Rlt (Rmult K rho) mu ->
  near P a rho b -> starts_at st (ptx b) (ptbg b) (pthg b) (ptp b) (ptye b) (ptyg b) (ptze b) (ptzg b) ->
  o_tol o = XF tol -> Rlt (Rmult K (rad n.+1)) tol -> Rlt (Rplus (Rmult Gamma (Rmult K (rad n.+1))) rm) tol ->
  (n.+1 <= o_maxiters o)%coq_nat -> (n < fuel)%coq_nat ->
  exists r st' c, 
    u_solve part (the_ech lu srt th sigma M) nonfinite (w_newton M lus 0 meth failed) None None fuel o f1 f2 f3 oAx oAp obc w0 hist m P st = Some (r, st') /\
    r_succeeded r = true /\ (1 <= r_iterations r)%coq_nat /\ (r_iterations r <= n.+1)%coq_nat /\
    starts_at st' (ptx c) (ptbg c) (pthg c) (ptp c) (ptye c) (ptyg c) (ptze c) (ptzg c) /\ near P a (rad (r_iterations r)) c.
Proof.
move=> part lu srt th sigma nonfinite lus meth failed fuel o f1 f2 f3 oAx oAp obc w0 hist m P M st tol a b kappa L C K mu Gamma rm A rho n d rad.
move=> HC LC SC th0 LUS NR CF OB B U N0 Sa KK SL CD SM LP MG BS LI WPV k0 L0 C0 K1 rm0 A0 rho0 kL kC ke rho_mu K_mu NB ST TOL T1 T2 MX FU.
have G := good_bounds_of CF OB U; have [G1 [G2 [G3 G4]]] := G.
have EM : [/\ ms_nx M = nxbar d, ms_np M = d_p d, ms_ny M = ny d & ms_nz M = nz d] by rewrite (Meq _ _ _ _ _ _ _ _ U).
have [Enx Enp Eny Enz] := EM.
have E0 : Rle 0 (Rmult A rm) by exact: Rmult_le_pos.
have RB k : Rle 0 (rad k) /\ Rle (rad k) rho.
  have [H1 H2] := radius_bound _ _ _ _ _ k0 L0 C0 E0 rho0 kL kC ke k; split=> //; apply: Rle_trans H2 _; apply: Rmax_lub => //.
  have [H3 H4] : Rle 0 (pow (Rinv 2) k) /\ Rle (pow (Rinv 2) k) 1 by elim: (k) => [|k' [I1 I2]] /=; lra.
  by have := Rmult_le_compat_l _ _ _ rho0 H4; rewrite Rmult_1_r.
pose Xof c := ptx c ++ ptbg c ++ pthg c; pose Wof c := ptye c ++ ptyg c ++ ptze c ++ ptzg c.
pose I k x p y := exists c, [/\ near P a (rad k) c, x = Xof c, p = ptp c & y = Wof c].
have BX1 : length (xlo (m_bounds M)) = nxbar d by rewrite G1.
have BX2 : length (xhi (m_bounds M)) = nxbar d by rewrite -(Forall2_len _ _ _ G3) G1.
have BP1 : length (plo (m_bounds M)) = d_p d by rewrite G2.
have BP2 : length (phi_ (m_bounds M)) = d_p d by rewrite -(Forall2_len _ _ _ G4) G2.
have IN k x p y : I k x p y -> length x = nxbar d /\ length p = d_p d /\ length y = (ny d + nz d)%coq_nat /\ all_inside (xlo (m_bounds M)) (xhi (m_bounds M)) x /\ all_inside (plo (m_bounds M)) (phi_ (m_bounds M)) p.
  move=> [c [NC -> -> ->]]; have [RB1 RB2] := RB k.
  have [[Q1 [Q2 [Q3 [Q4 [Q5 [Q6 [Q7 Q8]]]]]]] [[D1 [D2 [D3 [D4 _]]]] [H1 [H2 H3]]]] := NC.
  have [[_ [_ [_ [_ [_ [WX WP]]]]]] _] := KK; have [M1 [M2 [M3 [M4 M5]]]] := MG.
  split; first by rewrite /Xof !List.app_length Q1 Q3 Q4 /nxbar -/d -?plusE; lia.
  split=> //; split; first by rewrite /Wof !List.app_length Q5 Q6 Q7 Q8 /ny /nz -/d -?plusE; lia.
  have LT t u : Rle (Rabs (Rminus t u)) (rad k) -> Rlt (Rabs (Rminus t u)) mu by move=> ?; lra.
  split; last first.
    move=> i; rewrite Q2 => il; have [|H4 H5] := M5 i (at_ (ptp c) i) il; first by apply: LT; exact: D2.
    by rewrite /= (Meq _ _ _ _ _ _ _ _ U); split.
  have := proj2 (bounds_split _ _ _ _ _ _ _ _ CF U _ _ _ Q1 Q3 Q4); apply; split; [|split].
  - move=> j; rewrite Q1 => jl; have [H|H] := held_dec P a j.
      by rewrite H1 //; apply: WX; rewrite (proj1 Sa).
    by have [|H4 [H5 _]] := M2 j (at_ (ptx c) j) jl H; first by apply: LT; exact: D1.
  - move=> i il; have [H|H] := bg_held_dec a i; first by rewrite H2 //; exact: Rle_refl.
    have := proj2 (M3 i il) H; have := D3 i il; rewrite /= /Rabs; case: Rcase_abs => ? *; lra.
  - move=> i il; have [H|H] := hg_held_dec a i; first by rewrite H3 //; exact: Rle_refl.
    have := proj2 (M4 i il) H; have := D4 i il; rewrite /= /Rabs; case: Rcase_abs => ? *; lra.
pose ech := the_ech lu srt th sigma M.
have NW k x p y w : I k x p y -> exists x' p' y' dx dp dy,
  I k.+1 x' p' y' /\ (w_newton M lus 0 meth failed (w_update part M ech nonfinite w (fin x p y))).2 = fin dx dp dy /\
  length dx = nxbar d /\ length dp = d_p d /\ length dy = (ny d + nz d)%coq_nat /\
  (forall i, (i < nxbar d)%coq_nat -> Rplus (List.nth i x R0) (List.nth i dx R0) = List.nth i x' R0) /\
  (forall i, (i < d_p d)%coq_nat -> Rplus (List.nth i p R0) (List.nth i dp R0) = List.nth i p' R0) /\
  (forall i, (i < ny d + nz d)%coq_nat -> Rplus (List.nth i y R0) (List.nth i dy R0) = List.nth i y' R0).
  move=> [c [NC -> -> ->]].
  have [du [ED NE]] := near_step sigma nonfinite failed HC LC SC th0 LUS NR CF U B N0 CD SM LP MG BS LI WPV KK SL k0 L0 C0 K1 rm0 A0 kL rho_mu K_mu (RB k) NC w.
  set c' := Local_proofs.moved P c _ in NE.
  exists (Xof c'), (ptp c'), (Wof c'), (vlist (ms_nx M) (mx du)), (vlist (ms_np M) (mp du)), (vlist (ms_ny M + ms_nz M) (mw du)).
  split; first by exists c'; split.
  split; first exact: ED.
  rewrite !length_vlist Enx Enp Eny Enz; do 3![split=> //].
  have Sc : pt_sized d c by case: NC.
  split; last split.
  - move=> i il; rewrite nth_vlist; last exact/ssrnat.ltP.
    exact: (moved_X P c Sc (mx du) (mp du) (mw du) i il).
  - move=> i il; rewrite nth_vlist; last exact/ssrnat.ltP.
    by rewrite /c' /Local_proofs.moved /=; symmetry; exact: tabl_at.
  - move=> i il; rewrite nth_vlist; last exact/ssrnat.ltP.
    exact: (moved_W P c Sc (mx du) (mp du) (mw du) i il).
have I0 : I 0%N (Xof b) (ptp b) (Wof b) by exists b; split.
have ERR x p y w : I n.+1 x p y -> nltb (w_err (w_update part M ech nonfinite w (fin x p y))) (o_tol o) = true.
  move=> [c [NC -> -> ->]]; rewrite TOL.
  exact: (near_err sigma nonfinite HC LC SC th0 CF U B N0 LP MG BS LI WPV KK SL K1 rho_mu K_mu (RB n.+1) NC w T1 T2).
have [r [s [S [OK [[IT1 IT2] AR]]]]] := @solve_reaches (world (list (rawmx RF * rawvec RF))) (w_update part M ech nonfinite) (fun w _ => w_err w)
  (w_newton M lus 0 meth failed) (m_bounds M) o (nxbar d) (d_p d) (ny d + nz d)%coq_nat BX1 BX2 BP1 BP2 I IN NW n fuel w0 hist _ _ _ I0 FU MX ERR.
have [_ [_ [_ [x [p [y [Us [c [NC Ex Ep Ey]]]]]]]]] := AR.
have [E1 [E2 [E3 [E4 [E5 [E6 [E7 E8]]]]]]] := ST.
have EU : UVec (t_x (to_master m st)) (t_p (to_master m st)) (t_w (to_master m st)) = fin (Xof b) (ptp b) (Wof b).
  by rewrite /to_master /= E1 E2 E3 E4 E5 E6 E7 E8 /fin /Xof /Wof !List.map_app.
exists r, (of_master part d (finalize (to_master m st) (s_w s) (s_u s)) st), c.
split; first by rewrite /u_solve U /m_solve EU S.
do 3![split=> //]; split=> //.
by rewrite Us Ex Ep Ey; apply: state_at; case: NC.
Qed.
Print Assumptions C87_local_partial.

(** How the radius decreases: by half in each iteration, down to what the removal of round-off leaves. *)
Theorem C87_rate : forall kappa L C eta rho, Rle 0 kappa -> Rle 0 L -> Rle 0 C -> Rle 0 eta -> Rle 0 rho ->
  Rle (Rmult kappa (Rmult L rho)) (Rinv 8) -> Rle (Rmult kappa C) (Rinv 8) -> Rle (Rmult 8 (Rmult kappa eta)) rho ->
  forall k, Rle 0 (radius kappa L C eta rho k) /\ Rle (radius kappa L C eta rho k) (Rmax (Rmult rho (pow (Rinv 2) k)) (Rmult 8 (Rmult kappa eta))).
Proof. exact: radius_bound. Qed.
Print Assumptions C87_rate.

(** With linear constraints and no round-off removed the decrease is quadratic. *)
Theorem C87_quadratic : forall kappa L rho k, radius kappa L 0 0 rho k.+1 = Rmult (Rmult (Rdiv 8 7) (Rmult kappa L)) (Rmult (radius kappa L 0 0 rho k) (radius kappa L 0 0 rho k)).
Proof. by move=> kappa L rho k; rewrite [LHS]/=; ring. Qed.
Print Assumptions C87_quadratic.

(** So a number of iterations that depends on the constants and the tolerance only is enough, whatever the
    problem, the solution, the point it starts from and the history of the objects, for tolerances above what the removal of
    round-off leaves.  Missing: as in C87_local_partial. *)
Theorem C87_eventually_partial : forall tol kappa L C K mu Gamma rm A rho,
  Rle 0 kappa -> Rle 0 L -> Rle 0 C -> Rle 1 K -> Rle 0 Gamma -> Rle 0 rm -> Rle 0 A -> Rle 0 rho ->
  Rle (Rmult kappa (Rmult L rho)) (Rinv 8) -> Rle (Rmult kappa C) (Rinv 8) -> Rle (Rmult 8 (Rmult kappa (Rmult A rm))) rho ->
  Rlt rho mu -> Rlt (Rmult K rho) mu ->
  Rlt (Rmult K (Rmult 8 (Rmult kappa (Rmult A rm)))) tol -> Rlt (Rplus (Rmult Gamma (Rmult K (Rmult 8 (Rmult kappa (Rmult A rm))))) rm) tol ->
  exists N, forall part lu srt th sigma nonfinite lus meth failed fuel o f1 f2 f3 oAx oAp obc w0 hist m P M st a b,
  let d := p_dims P in
  partition_contract part -> lu_correct lu -> sort_correct srt -> 0 <= th -> (forall n (A : 'M[RF]_n), full_piv A (lus n A)) -> meth <> Rangespace ->
  conforming P -> ordered_bounds P -> block_unspoiled f1 oAx d -> update_master f1 f2 f3 oAx oAp obc P = Some M ->
  (0 < d_be d + d_bg d + d_he d + d_hg d)%coq_nat ->
  pt_sized d a -> user_kkt P (ptx a) (ptp a) (ptye a) (ptyg a) (ptze a) (ptzg a) -> slacks P (ptx a) (ptp a) (ptbg a) (pthg a) ->
  conditioned P a kappa -> smooth P a L C rho -> lipschitz P a K rho -> margins P a mu -> bases P a M Gamma rm A rho ->
  (forall c, near P a rho c -> licq P (ptx c) (ptbg c) (pthg c) (ptp c)) ->
  (forall c, near P a rho c -> well_pivoted th M (ptx c ++ ptbg c ++ pthg c) (ptp c)) ->
  near P a rho b -> starts_at st (ptx b) (ptbg b) (pthg b) (ptp b) (ptye b) (ptyg b) (ptze b) (ptzg b) ->
  o_tol o = XF tol -> (N <= o_maxiters o)%coq_nat -> (N <= fuel)%coq_nat ->
  exists r st' c, 
    u_solve part (the_ech lu srt th sigma M) nonfinite (w_newton M lus 0 meth failed) None None fuel o f1 f2 f3 oAx oAp obc w0 hist m P st = Some (r, st') /\
    r_succeeded r = true /\ (r_iterations r <= N)%coq_nat /\
    starts_at st' (ptx c) (ptbg c) (pthg c) (ptp c) (ptye c) (ptyg c) (ptze c) (ptzg c) /\ near P a rho c.
Proof.
move=> tol kappa L C K mu Gamma rm A rho k0 L0 C0 K1 g0 rm0 A0 rho0 kL kC ke rho_mu K_mu T1 T2.
have E0 : Rle 0 (Rmult A rm) by exact: Rmult_le_pos.
have RB := radius_bound _ _ _ _ _ k0 L0 C0 E0 rho0 kL kC ke.
set q := Rmult 8 _ in ke T1 T2 RB.
have q0 : Rle 0 q by apply: Rmult_le_pos; [lra | exact: Rmult_le_pos].
(* a radius s above q that still does *)
have [s [qs S1 S2]] : exists s, [/\ Rlt q s, Rlt (Rmult K s) tol & Rlt (Rplus (Rmult Gamma (Rmult K s)) rm) tol].
  pose e := Rmin (Rminus tol (Rmult K q)) (Rminus tol (Rplus (Rmult Gamma (Rmult K q)) rm)).
  have e0 : Rlt 0 e by apply: Rmin_glb_lt; lra.
  pose D := Rplus 1 (Rplus K (Rmult Gamma K)).
  have GK : Rle 0 (Rmult Gamma K) by apply: Rmult_le_pos; lra.
  have D0 : Rlt 0 D by rewrite /D; lra.
  pose h := Rdiv e D.
  have h0 : Rlt 0 h by apply: Rmult_lt_0_compat => //; exact: Rinv_0_lt_compat.
  have Dh : Rmult D h = e by rewrite /h; field; lra.
  have Kh : Rlt (Rmult K h) e by rewrite -Dh; apply: Rmult_lt_compat_r => //; rewrite /D; lra.
  have GKh : Rlt (Rmult (Rmult Gamma K) h) e by rewrite -Dh; apply: Rmult_lt_compat_r => //; rewrite /D; lra.
  have e1 : Rle e (Rminus tol (Rmult K q)) by exact: Rmin_l.
  have e2 : Rle e (Rminus tol (Rplus (Rmult Gamma (Rmult K q)) rm)) by exact: Rmin_r.
  exists (Rplus q h); split; first lra.
  - rewrite Rmult_plus_distr_l; lra.
  - rewrite !Rmult_plus_distr_l -(Rmult_assoc Gamma K h); lra.
have s0 : Rlt 0 s by lra.
have [N HN] : exists N, Rle (Rmult rho (pow (Rinv 2) N)) s.
  have hy : Rlt 0 (Rdiv s (Rplus rho 1)) by apply: Rmult_lt_0_compat => //; apply: Rinv_0_lt_compat; lra.
  have [N HN] := pow_lt_1_zero (Rinv 2) ltac:(rewrite Rabs_right; lra) _ hy.
  exists N; have := HN N (le_n N); have P0 : Rlt 0 (pow (Rinv 2) N) by apply: pow_lt; lra.
  rewrite Rabs_right; last lra.
  move=> H; have H2 : Rlt (Rmult (Rplus rho 1) (pow (Rinv 2) N)) s.
    have := Rmult_lt_compat_l (Rplus rho 1) _ _ ltac:(lra) H.
    have -> // : Rmult (Rplus rho 1) (Rdiv s (Rplus rho 1)) = s by field; lra.
  rewrite Rmult_plus_distr_r in H2; lra.
have RN : Rle (radius kappa L C (Rmult A rm) rho N.+1) s.
  have [_ H] := RB N.+1; apply: Rle_trans H _; apply: Rmax_lub; last lra.
  have P0 : Rlt 0 (pow (Rinv 2) N) by apply: pow_lt; lra.
  have := Rmult_le_pos _ _ rho0 (Rlt_le _ _ P0); rewrite [pow _ N.+1]/= => ?; lra.
have KS : Rle (Rmult K (radius kappa L C (Rmult A rm) rho N.+1)) (Rmult K s) by apply: Rmult_le_compat_l RN; lra.
have GS : Rle (Rmult Gamma (Rmult K (radius kappa L C (Rmult A rm) rho N.+1))) (Rmult Gamma (Rmult K s)) by exact: Rmult_le_compat_l KS.
exists N.+1 => part lu srt th sigma nonfinite lus meth failed fuel o f1 f2 f3 oAx oAp obc w0 hist m P M st a b d.
move=> HC LC SC th0 LUS NR CF OB B U N0 Sa KK SL CD SM LP MG BS LI WPV NB ST TOL MX FU.
have [||r [st' [c [E [OK [_ [I2 [ST' NC]]]]]]]] := @C87_local_partial part lu srt th sigma nonfinite lus meth failed fuel o f1 f2 f3 oAx oAp obc w0 hist m P M st tol a b
  kappa L C K mu Gamma rm A rho N HC LC SC th0 LUS NR CF OB B U N0 Sa KK SL CD SM LP MG BS LI WPV k0 L0 C0 K1 rm0 A0 rho0 kL kC ke rho_mu K_mu NB ST TOL _ _ MX FU.
- by apply: Rle_lt_trans S1.
- lra.
exists r, st', c; do 4![split=> //].
have [S1' [B1 H1]] := NC; split=> //; split=> //.
apply: bounded_le B1; have [_ H] := RB (r_iterations r); apply: Rle_trans H _; apply: Rmax_lub => //.
have [H3 H4] : Rle 0 (pow (Rinv 2) (r_iterations r)) /\ Rle (pow (Rinv 2) (r_iterations r)) 1 by elim: (r_iterations r) => [|k' [I1' I2']] /=; lra.
by have := Rmult_le_compat_l _ _ _ rho0 H4; rewrite Rmult_1_r.
Qed.
Print Assumptions C87_eventually_partial.

(** ** A case: min x0^2/2 + x0^3/6 + x1^2/2 + x2 subject to x0 + x1 = 0 and x2 >= 0.  From every point within 1/12 of the
    origin, with x2 on its bound, the calculation succeeds after at most two iterations with a tolerance of 1/1000. *)
Example C87_case : forall b, near P88 a88 (Rinv 12) b ->
  exists lu srt lus M r st' c, lu_correct lu /\ sort_correct srt /\ (forall n (A : 'M[RF]_n), full_piv A (lus n A)) /\
    u_solve libstdcxx_partition (the_ech lu srt code_threshold 0 M) (fun h _ => (h, XNaN)) (w_newton M lus 0 Nullspace (no_step P88)) None None 2
      (Options 5 (XF (Rinv 1000)) false) mem7 mem7 mem7 old7 old7 old7 w83 nil m0 P88 (state_of P88 b) = Some (r, st') /\
    r_succeeded r = true /\ (r_iterations r <= 2)%coq_nat /\
    starts_at st' (ptx c) (ptbg c) (pthg c) (ptp c) (ptye c) (ptyg c) (ptze c) (ptzg c) /\
    near P88 a88 (radius (Rdiv 3 2) 1 0 (Rmult 1 (Rinv (pow 2 52))) (Rinv 12) (r_iterations r)) c.
Proof.
move=> b NB.
have [lu LC] := lu_correct_exists RF; have [srt SC] := sort_correct_exists RF; have [lus LUS] := lu_exists RF.
have ct : (0 : RF) < code_threshold /\ (code_threshold : RF) < 1 by split; apply/R_ltP; case: code_threshold_range.
have OB : ordered_bounds P88 by split=> //; split; repeat constructor.
have BU : block_unspoiled mem7 old7 (p_dims P88) by right; left.
have CF : conforming P88 by repeat split.
have [M U] : exists M, update_master mem7 mem7 mem7 old7 old7 old7 P88 = Some M by eexists; reflexivity.
have e0 : Rlt 0 (Rinv (pow 2 52)) by apply: Rinv_0_lt_compat; apply: pow_lt; lra.
have e1 : Rlt (Rinv (pow 2 52)) (Rinv 1000000000).
  apply: Rinv_lt_contravar; first by apply: Rmult_lt_0_compat; [lra | apply: pow_lt; lra].
  have -> : pow 2 52 = Rmult (pow 2 30) (pow 2 22) by rewrite -pow_add.
  have -> : pow 2 30 = IZR 1073741824 by rewrite /=; ring.
  have -> : pow 2 22 = IZR 4194304 by rewrite /=; ring.
  lra.
set e := Rinv (pow 2 52) in e0 e1 *.
have WPV c : near P88 a88 (Rinv 12) c -> well_pivoted code_threshold M (ptx c ++ ptbg c ++ pthg c) (ptp c).
  move=> _; apply: well_pivoted_row; [exact: (proj2 code_threshold_range) | by rewrite (Meq _ _ _ _ _ _ _ _ U) |].
  rewrite (Meq _ _ _ _ _ _ _ _ U) /m_Wx; case=> [|[|[|j]]] H; [by right; exact: Rabs_R1 | by right; exact: Rabs_R1 | by left | by move: H => /ssrnat.ltP].
have R1' : radius (Rdiv 3 2) 1 0 (Rmult 1 e) (Rinv 12) 1 = Rmult (Rdiv 12 7) (Rplus (Rinv 144) e) by rewrite /=; field.
have R2' : Rlt (radius (Rdiv 3 2) 1 0 (Rmult 1 e) (Rinv 12) 2) (Rinv 4000).
  set q := radius (Rdiv 3 2) 1 0 (Rmult 1 e) (Rinv 12) 1 in R1'.
  have -> : radius (Rdiv 3 2) 1 0 (Rmult 1 e) (Rinv 12) 2 = Rmult (Rdiv 8 7) (Rmult (Rdiv 3 2) (Rplus (Rplus (Rmult 0 q) (Rmult 1 (Rmult q q))) (Rmult 1 e))) by [].
  rewrite R1'; set t := Rmult _ (Rplus (Rinv 144) e).
  have t0 : Rle 0 t by rewrite /t; lra.
  have t1 : Rle t (Rdiv 1191 100000) by rewrite /t; lra.
  have := Rmult_le_compat _ _ _ _ t0 t0 t1 t1; lra.
have [|||||||||||||||||||||||r [st' [c [E [OK [_ [I2 [ST NC]]]]]]]] := @C87_local_partial libstdcxx_partition lu srt code_threshold 0 (fun h _ => (h, XNaN)) lus Nullspace (no_step P88) 2
  (Options 5 (XF (Rinv 1000)) false) mem7 mem7 mem7 old7 old7 old7 w83 nil m0 P88 M (state_of P88 b) (Rinv 1000) a88 b
  (Rdiv 3 2) 1 0 3 (Rinv 2) 1 e 1 (Rinv 12) 1
  libstdcxx_contract LC SC (ltW (proj1 ct)) LUS _ CF OB BU U _ _ kkt88 _ conditioned88 smooth88 lipschitz88 margins88 (bases88 _ _ _ _ _ _ _ U) licq88 WPV; try lra; try by [].
- by split=> i /= H; exfalso; lia.
- by rewrite /=; lia.
- by exists lu, srt, lus, M, r, st', c.
Qed.
