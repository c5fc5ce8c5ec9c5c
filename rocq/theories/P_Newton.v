(** Property theorems C80 and C81: the Newton direction, and what follows for the calculation. *)
From Coq Require Import List PeanoNat Permutation Reals Lra Lia.
From mathcomp Require Import all_ssreflect all_fingroup all_algebra.
From Verif Require Import Num Num_facts Index_model Index_spec Index_proofs MatUtil_model Num_rf R_rf LU_model LU_spec Linear_model Linear_spec Canonical_model Canonical_spec Canonical_proofs.
From Verif Require Import ResErr_model Residual_model Residual_spec Residual_proofs P_Residual.
From Verif Require Import Loop_model Loop_spec Loop_proofs P_Loop Wrapper_model Wrapper_spec Wrapper_proofs P_Wrapper Stay_proofs End_model End_spec Near_proofs End_proofs.
From Verif Require Import Newton_model Newton_spec Newton_proofs Exact_spec Exact_proofs ExactUser_proofs P_Linear Accept_proofs P_End.
Set Implicit Arguments.
Unset Strict Implicit.
Unset Printing Implicit Defensive.
Import Order.TTheory GRing.Theory Num.Theory.
Local Open Scope ring_scope.

(** ** C80.  The Newton direction computed from the residuals at u solves the optimality
    conditions linearised at u, in which the unstable variables keep their values (they are on
    their bounds, C43).  The constraints are off by [rho], what the removal of round-off from
    the residuals changes; nothing, if no sum cancels.  Missing: fewer basic variables than constraints (C46), and the
    restrictions of C33, C38 on the linear solvers. *)
Theorem C80_newton_partial : forall (F : realFieldType) (lu : forall n, 'M[F]_n -> lufac F n) (eps : F) meth
    part (nx np ny nz : nat) (d : pdata F) (e : evals F) Wx Wp q u r u0,
  (forall n (A : 'M[F]_n), full_piv A (lu n A)) -> 0 <= eps -> partition_contract part ->
  echelon_of nx np (ny + nz) e Wx Wp q -> rf_update part nx np ny nz d e Wx Wp q u = Some r ->
  length (qjb q) = (ny + nz)%N ->
  let unstable := fun j => In j (status_ju (rst r)) in
  regular nx np (ny + nz) e Wx Wp unstable -> newton_resolved lu eps meth np r ->
  let a := rv_awstar np ny d e (rM r) (rc r) u in
  exists du rho, [/\ newton_dir lu eps meth np r u0 = Some du,
    newton_eqs nx np (ny + nz) e Wx Wp unstable (fun i => - lagrangian ny nz e Wx u i) (fun k => - ev e k)
      (fun l => constraint_left nx np ny d e Wx Wp u l + rho l) du,
    forall l, (l < ny + nz)%N -> `|rho l| <= \sum_(i < ny + nz) `|Wx l (ix (kjb (rc r)) i)| * roundoff ny nz (kR (rc r)) a i
  & (forall i, (i < ny + nz)%N -> no_cancellation ny nz (kR (rc r)) a i) -> forall l, rho l = 0].
Proof.
move=> F lu eps meth part nx np ny nz d e Wx Wp q u r u0 LU e0 HC HE RU LQ unstable RG NR a.
have [du E N] := newton_ok LU e0 HC HE RU LQ RG NR u0.
exists du, (cleaned_by nx np ny nz d e Wx Wp u r); split=> //.
  by move=> l ll; exact: (cleaned_bound HC HE RU LQ ll).
by move=> NC l; exact: (cleaned_exact HC HE RU LQ NC).
Qed.
Print Assumptions C80_newton_partial.

(** ** C81.  When the problem is its own linearisation between the initial point (x, p) and a
    KKT point (x', p', w') - for instance with a quadratic objective function and affine
    constraints - one iteration finds that point exactly, whatever the initial multipliers.
    Hypotheses on the initial point: its unstable variables have their final values and the
    others have zero gradient of the Lagrange function at the KKT point ("the active bounds are
    known"); the Newton equations are regular; as many basic variables as constraints (C46);
    nothing is taken for round-off.  At the KKT point: as in C76. *)
Definition initial_ok (part : partition_impl) (M : master R xreal) (lu : forall n, 'M[RF]_n -> lufac RF n) (eps : RF) (meth : lsmethod)
    (x p w x' p' w' : list R) (q : rwq RF) : Prop :=
  let nx := ms_nx M in let np := ms_np M in let ny := ms_ny M in let nz := ms_nz M in
  let e := m_evals M x p in let Wx := m_Wx M x p in let Wp := m_Wp M x p in
  let u := MVec (vec x : rawvec RF) (vec p : rawvec RF) (vec w : rawvec RF) in
  length (qjb q) = (ny + nz)%N /\
  forall r, rf_update part nx np ny nz (m_data M x) e Wx Wp q u = Some r ->
  let unstable := fun j => In j (status_ju (rst r)) in
  [/\ regular nx np (ny + nz) e Wx Wp unstable, newton_resolved lu eps meth np r,
      forall i, (i < ny + nz)%N -> no_cancellation ny nz (kR (rc r)) (rv_awstar np ny (m_data M x) e (rM r) (rc r) u) i
    & forall j, (j < nx)%coq_nat -> (unstable j -> at_ x' j = at_ x j) /\ (~ unstable j -> cgrad M x' p' w' j = R0)].
Definition final_ok (M : master R xreal) (x' p' w' : list R) (tol : R) (q : rwq RF) : Prop :=
  (qjb q <> nil \/ forall j, (j < ms_nx M)%coq_nat -> cgrad M x' p' w' j = R0) /\
  forall i, (i < length (qjb q))%coq_nat -> Rlt (row_room M x' p' (qR q) i) tol.

Theorem C81_one_iteration_partial : forall part M E ech nonfinite lu eps meth failed check fuel o (w0 : world E) hist
    x p w x' p' w' tol,
  partition_contract part -> ech_contract M ech -> (forall n (A : 'M[RF]_n), full_piv A (lu n A)) -> 0 <= eps ->
  good_bounds (ms_nx M) (ms_np M) (m_bounds M) ->
  length x = ms_nx M -> length x' = ms_nx M -> length p = ms_np M -> length p' = ms_np M ->
  length w = (ms_ny M + ms_nz M)%N -> length w' = (ms_ny M + ms_nz M)%N ->
  within (ms_xlower M) (ms_xupper M) x -> within (ms_plower M) (ms_pupper M) p ->
  master_kkt M x' p' w' -> exact_linearisation M x p x' p' ->
  (forall a wt, weights_at M x wt -> initial_ok part M lu eps meth x p w x' p' w' (ech a (m_Wx M x p) (m_Wp M x p) wt).2) ->
  (forall a wt, weights_at M x' wt -> final_ok M x' p' w' tol (ech a (m_Wx M x' p') (m_Wp M x' p') wt).2) ->
  o_tol o = XF tol -> Rlt R0 tol -> (1 <= o_maxiters o)%coq_nat ->
  exists s, m_solve part M ech nonfinite (w_newton M lu eps meth failed) None check (S fuel) o w0 hist (fin x p w)
      = Some (Result true 1 nzero, s) /\ s_u s = fin x' p' w'.
Proof.
move=> part M E ech nonfinite lu eps meth failed check fuel o w0 hist x p w x' p' w' tol HC HE LU e0 G.
move=> Lx Lx' Lp Lp' Lw Lw' IX IP KK EX HI HF TOL t0 MX.
have [G1 [G2 [G3 G4]]] := G.
have [|||||||||||||s [S [Us _]]] := @solve_one_step (world E) (w_update part M ech nonfinite) (fun w _ => w_err w) (w_newton M lu eps meth failed) check (m_bounds M) o
   x p w x' p' w' _ _ _ _ _ _ _ _ _ _ _ _ _ MX fuel w0 hist; last by exists s.
- by rewrite G1 Lx.
- by rewrite -(Forall2_len _ _ _ G3) G1 Lx.
- by rewrite G2 Lp.
- by rewrite -(Forall2_len _ _ _ G4) G2 Lp.
- by rewrite Lx Lx'.
- by rewrite Lp Lp'.
- by rewrite Lw Lw'.
- exact: IX.
- exact: IP.
- by have [[_ [_ [_ [H _]]]] _] := KK.
- by have [[_ [_ [_ [_ H]]]] _] := KK.
- move=> v; have [q [r [[a [wt [WT Eq]]] HQ RU R1 _]]] := w_update_fin nonfinite v x p w HC HE.
  have [LQ HR] := HI a wt WT; rewrite -Eq in LQ HR.
  have {HR}[RG NR CL AC] := HR r RU.
  have [du ED ND] := newton_ok LU e0 HC HQ RU LQ RG NR (fun _ => 0).
  have DN := delta_newton w KK EX AC.
  have ND' : newton_eqs (ms_nx M) (ms_np M) (ms_ny M + ms_nz M) (m_evals M x p) (m_Wx M x p) (m_Wp M x p) (fun j => In j (status_ju (rst r)))
     (fun i => - lagrangian (ms_ny M) (ms_nz M) (m_evals M x p) (m_Wx M x p) (MVec (vec x : rawvec RF) (vec p : rawvec RF) (vec w : rawvec RF)) i) (fun k => - ev (m_evals M x p) k)
     (constraint_left (ms_nx M) (ms_np M) (ms_ny M) (m_data M x) (m_evals M x p) (m_Wx M x p) (m_Wp M x p) (MVec (vec x) (vec p) (vec w))) du.
    case: ND => N1 N2 N3 N4; split=> // l ll.
    by rewrite N4 // (cleaned_exact HC HQ RU LQ CL) addr0.
  have [D1 D2 D3] := newton_unique RG ND' DN.
  exists (vlist (ms_nx M) (mx du)), (vlist (ms_np M) (mp du)), (vlist (ms_ny M + ms_nz M) (mw du)).
  rewrite /w_newton R1 ED; split=> //.
  rewrite !length_vlist Lx Lp Lw; do 3![split=> //].
  have ADD (s t : RF) : Rplus s (t - s) = t by rewrite -R_addE addrC subrK.
  split; last split.
  + by move=> i /ssrnat.ltP il; rewrite (nth_vlist _ il) D1 //; exact: ADD.
  + by move=> i /ssrnat.ltP il; rewrite (nth_vlist _ il) D2 //; exact: ADD.
  + by move=> i /ssrnat.ltP il; rewrite (nth_vlist _ il) D3 //; exact: ADD.
- move=> v0; set v := (w_newton _ _ _ _ _ _).1; have [q [rr [[a [wt [WT Eq]]] HQ RU R1 ->]]] := w_update_fin nonfinite v x' p' w' HC HE.
  have [J0 R0'] := HF a wt WT; rewrite -Eq in J0 R0'.
  have := kkt_small HC HQ RU t0 J0 KK R0'.
  by rewrite TOL /= /rltb; case: Rlt_dec.
Qed.
Print Assumptions C81_one_iteration_partial.

(** The calculation of the master problem in terms of the user's state *)
Lemma lift_run part E ech nonfinite newton phi check fuel o f1 f2 f3 oAx oAp obc (w0 : world E) hist m P M st
    x xbg xhg p ye yg ze zg x' xbg' xhg' p' ye' yg' ze' zg' r s :
  let d := p_dims P in
  update_master f1 f2 f3 oAx oAp obc P = Some M -> starts_at st x xbg xhg p ye yg ze zg ->
  length x' = d_x d -> length xbg' = d_bg d -> length xhg' = d_hg d ->
  length ye' = d_be d -> length yg' = d_bg d -> length ze' = d_he d -> length zg' = d_hg d ->
  m_solve part M ech nonfinite newton phi check fuel o w0 hist (fin (x ++ xbg ++ xhg) p (ye ++ yg ++ ze ++ zg)) = Some (r, s) ->
  s_u s = fin (x' ++ xbg' ++ xhg') p' (ye' ++ yg' ++ ze' ++ zg') ->
  exists st', u_solve part ech nonfinite newton phi check fuel o f1 f2 f3 oAx oAp obc w0 hist m P st = Some (r, st') /\
    starts_at st' x' xbg' xhg' p' ye' yg' ze' zg'.
Proof.
move=> d U [E1 [E2 [E3 [E4 [E5 [E6 [E7 E8]]]]]]] Lx' Lg' Lh' Ly1' Ly2' Ly3' Ly4' S Us.
set X' := x' ++ _ in Us; set w' := ye' ++ _ in Us.
have EU : UVec (t_x (to_master m st)) (t_p (to_master m st)) (t_w (to_master m st)) = fin (x ++ xbg ++ xhg) p (ye ++ yg ++ ze ++ zg).
  by rewrite /to_master /= E1 E2 E3 E4 E5 E6 E7 E8 /fin !List.map_app.
pose mf := finalize (to_master m st) (s_w s) (s_u s).
have [F1 F2 F3] : [/\ t_x mf = List.map XF X', t_p mf = List.map XF p' & t_w mf = List.map XF w'].
  by rewrite /mf Us /finalize; case: w_res.
exists (of_master part d mf st).
split; first by rewrite /u_solve U EU S.
pose st2 : ustate xreal := UState d (List.map XF x') (List.map XF p') (List.map XF ye') (List.map XF yg') (List.map XF ze') (List.map XF zg') nil
  (List.map XF xbg') (List.map XF xhg') nil nil nil nil nil nil.
have SS2 : state_sized d st2 by rewrite /state_sized /= !List.map_length.
have [H1 [H2 [H3 [H4 [H5 [H6 [H7 H8]]]]]]] := C59_roundtrip _ part d m st2 SS2.
have [T1 T3] : t_x mf = t_x (to_master m st2) /\ t_w mf = t_w (to_master m st2) by rewrite F1 F3 /X' /w' /= !List.map_app.
rewrite /starts_at; move: H1 H3 H4 H5 H6 H7 H8; rewrite /of_master; cbn [s_x s_p s_xbg s_xhg s_ye s_yg s_ze s_zg].
by rewrite -T1 -T3 F2 => -> -> -> -> -> -> ->.
Qed.

(** The same for Solver::solve and the user's functions. *)
Theorem C81_user_partial : forall part E ech nonfinite lu eps meth failed check fuel o f1 f2 f3 oAx oAp obc (w0 : world E) hist m P M st
    x xbg xhg p ye yg ze zg x' xbg' xhg' p' ye' yg' ze' zg' tol,
  let d := p_dims P in
  let X := x ++ xbg ++ xhg in let w := ye ++ yg ++ ze ++ zg in
  let X' := x' ++ xbg' ++ xhg' in let w' := ye' ++ yg' ++ ze' ++ zg' in
  partition_contract part -> conforming P -> ordered_bounds P -> block_unspoiled f1 oAx d ->
  update_master f1 f2 f3 oAx oAp obc P = Some M -> ech_contract M ech -> (forall n (A : 'M[RF]_n), full_piv A (lu n A)) -> 0 <= eps ->
  state_sized d st -> length p = d_p d -> starts_at st x xbg xhg p ye yg ze zg ->
  within (p_xlower P) (p_xupper P) x -> within (p_plower P) (p_pupper P) p ->
  (forall i, (i < d_bg d)%coq_nat -> Rle (at_ xbg i) R0) -> (forall i, (i < d_hg d)%coq_nat -> Rle (at_ xhg i) R0) ->
  length x' = d_x d -> length xbg' = d_bg d -> length xhg' = d_hg d -> length p' = d_p d ->
  length ye' = d_be d -> length yg' = d_bg d -> length ze' = d_he d -> length zg' = d_hg d ->
  user_kkt P x' p' ye' yg' ze' zg' -> slacks P x' p' xbg' xhg' -> user_exact P x p x' p' ->
  (forall a wt, weights_at M X wt -> initial_ok part M lu eps meth X p w X' p' w' (ech a (m_Wx M X p) (m_Wp M X p) wt).2) ->
  (forall a wt, weights_at M X' wt -> final_ok M X' p' w' tol (ech a (m_Wx M X' p') (m_Wp M X' p') wt).2) ->
  o_tol o = XF tol -> Rlt R0 tol -> (1 <= o_maxiters o)%coq_nat ->
  exists r st', u_solve part ech nonfinite (w_newton M lu eps meth failed) None check (S fuel) o f1 f2 f3 oAx oAp obc w0 hist m P st = Some (r, st') /\
    r_succeeded r = true /\ r_iterations r = 1%N /\ starts_at st' x' xbg' xhg' p' ye' yg' ze' zg'.
Proof.
move=> part E ech nonfinite lu eps meth failed check fuel o f1 f2 f3 oAx oAp obc w0 hist m P M st.
move=> x xbg xhg p ye yg ze zg x' xbg' xhg' p' ye' yg' ze' zg' tol d X w X' w'.
move=> HC C O B U HE LU e0 SS Lp [E1 [E2 [E3 [E4 [E5 [E6 [E7 E8]]]]]]] IX IP IG IH Lx' Lg' Lh' Lp' Ly1' Ly2' Ly3' Ly4' K SL EX HI HF TOL t0 MX.
have [Lx [Ly1 [Ly2 [Ly3 [Ly4 [Lg Lh]]]]]] := SS.
rewrite E1 E2 E3 E5 E6 E7 E8 !List.map_length in Lx Ly1 Ly2 Ly3 Ly4 Lg Lh.
have MK : master_kkt M X' p' w'.
  by apply/(C57_kkt_partial _ _ _ _ _ _ _ _ _ _ _ _ _ _ _ _ C U B Lx' Lg' Lh' Ly1' Ly2' Ly3').
have G := good_bounds_of C O U.
have EM : [/\ ms_nx M = nxbar d, ms_np M = d_p d, ms_ny M = ny d & ms_nz M = nz d] by rewrite (Meq _ _ _ _ _ _ _ _ U).
have [Enx Enp Eny Enz] := EM.
have LX : length X = ms_nx M by rewrite Enx /X !List.app_length Lx Lg Lh /nxbar; lia.
have LX' : length X' = ms_nx M by rewrite Enx /X' !List.app_length Lx' Lg' Lh' /nxbar; lia.
have LW : length w = (ms_ny M + ms_nz M)%N by rewrite Eny Enz /w !List.app_length Ly1 Ly2 Ly3 Ly4 /ny /nz -plusE; lia.
have LW' : length w' = (ms_ny M + ms_nz M)%N by rewrite Eny Enz /w' !List.app_length Ly1' Ly2' Ly3' Ly4' /ny /nz -plusE; lia.
have WX : within (ms_xlower M) (ms_xupper M) X.
  by apply/(bounds_split _ _ _ _ _ _ _ _ C U _ _ _ Lx Lg Lh).
have WP : within (ms_plower M) (ms_pupper M) p by rewrite (Meq _ _ _ _ _ _ _ _ U).
have XE : exact_linearisation M X p X' p' by apply: (exact_master _ _ _ _ _ _ _ _ U).
have LP : length p = ms_np M by rewrite Enp.
have LP' : length p' = ms_np M by rewrite Enp.
have [s [S Us]] := C81_one_iteration_partial nonfinite failed check fuel w0 hist HC HE LU e0 G LX LX' LP LP' LW LW' WX WP MK XE HI HF TOL t0 MX.
have [st' [S1 S2]] := lift_run m U (conj E1 (conj E2 (conj E3 (conj E4 (conj E5 (conj E6 (conj E7 E8))))))) Lx' Lg' Lh' Ly1' Ly2' Ly3' Ly4' S Us.
by exists (Result true 1 nzero), st'.
Qed.
Print Assumptions C81_user_partial.

(** LU factors can be chosen for all matrices at once. *)
Lemma lu_exists (F : realFieldType) : exists lu : forall n, 'M[F]_n -> lufac F n, forall n (A : 'M[F]_n), full_piv A (lu n A).
Proof.
pose mk n (t : 'S_n * 'S_n * 'M[F]_n) := LUFac t.1.1 t.1.2 t.2.
pose ok n (A : 'M[F]_n) (t : 'S_n * 'S_n * 'M[F]_n) :=
  (permuted t.1.1 t.1.2 A == unit_lower t.2 *m upper t.2) &&
  [forall k : 'I_n, (t.2 k k == 0) ==> [forall i : 'I_n, [forall j : 'I_n, (k <= i)%N ==> (k <= j)%N ==> (t.2 i j == 0)]]].
have okP n (A : 'M[F]_n) t : reflect (full_piv A (mk n t)) (ok n A t).
  apply: (iffP andP) => -[H1 H2]; split.
  - exact/eqP.
  - move=> k /eqP k0 i j ki kj; apply/eqP.
    by have /forallP/(_ k)/implyP/(_ k0)/forallP/(_ i)/forallP/(_ j)/implyP/(_ ki)/implyP/(_ kj) := H2.
  - exact/eqP.
  - apply/forallP => k; apply/implyP => /eqP k0; apply/forallP => i; apply/forallP => j; apply/implyP => ki; apply/implyP => kj.
    by apply/eqP; apply: H2 k0 _ _ ki kj.
have ex n (A : 'M[F]_n) : exists t, ok n A t.
  have [[P Q M] f] := full_piv_exists A; exists (P, Q, M); exact/okP.
by exists (fun n A => mk n (xchoose (ex n A))) => n A; apply/okP; apply: xchooseP.
Qed.

(** min (x0^2 + x1^2)/2 + x2 subject to x0 + x1 = 2, x0, x1 >= -5, x2 >= 0, from the origin,
    where x2 is on its bound: after one iteration x = (1, 1, 0) with multiplier -1, exactly. *)
Definition f81 : ofun R := fun x p c r =>
  ORes R0 (fun i => if Nat.ltb i 2 then at_ x i else R1) (fun i j => if (Nat.eqb i j && Nat.ltb i 2)%bool then R1 else R0) (o_fxp r) (o_fxc r) true false true.
Definition P81 : problem R xreal := Problem (Dims 3 0 1 0 0 0 0) None (Some f81) (Some cfn0) (Some cfn0) (Some cfn0)
  (fun _ j => if Nat.ltb j 2 then R1 else R0) mzeros mzeros mzeros (IZR 2 :: nil) nil
  (XF (IZR (-5)) :: XF (IZR (-5)) :: XF R0 :: nil) (XPInf :: XPInf :: XPInf :: nil) nil nil nil mzeros mzeros.
Definition q81 : rwq RF := RWQ (fun _ _ => 1) (fun _ k => if Nat.eqb k 0 then 1 else 0) (fun _ _ => 0) (0%N :: nil) (1%N :: 2%N :: nil).
Definition st81 : ustate xreal := UState (p_dims P81) (XF R0 :: XF R0 :: XF R0 :: nil) nil (XF R0 :: nil) nil nil nil nil nil nil nil nil nil nil nil nil.
Definition ech81 (a : unit) (_ _ : rawmx RF) (_ : rawvec RF) := (a, q81).
Definition x81 := R0 :: R0 :: R0 :: nil.
Definition y81 := R1 :: R1 :: R0 :: nil.
Definition w81 := IZR (-1) :: nil.

Lemma initial81 M lu : update_master mem7 mem7 mem7 old7 old7 old7 P81 = Some M ->
  ech_contract M ech81 /\ initial_ok libstdcxx_partition M lu 0 Nullspace x81 nil (R0 :: nil) y81 nil w81 q81.
Proof.
move=> U.
have EM : [/\ ms_nx M = 3%N, ms_np M = 0%N, ms_ny M = 1%N & ms_nz M = 0%N] by rewrite (Meq _ _ _ _ _ _ _ _ U).
have [E1 E2 E3 E4] := EM.
have W x p j : (j < 3)%N -> m_Wx M x p 0%N j = if (j < 2)%N then 1 else 0.
  by rewrite /m_Wx E3 /= (Meq _ _ _ _ _ _ _ _ U); case: j => [|[|[|j]]].
have HE : ech_contract M ech81.
  move=> a x p wt ju; rewrite E1 E2 E3 E4 /=; split.
  - exact: Permutation_refl.
  - by case=> // -[] // _ _; rewrite big_ord_recl big_ord0 /= W // mulr1 addr0.
  - by case=> // -[|[|k]] // _ _; rewrite big_ord_recl big_ord0 /= W // mul1r addr0.
  - by [].
split=> //; split; first by rewrite E3 E4.
set e := m_evals M x81 nil; set u := MVec _ _ _ => r RU.
have HC := libstdcxx_contract.
have HQ := HE tt x81 nil (fun _ => 0); rewrite /= in HQ.
have [_ _ _ JU] := @rf_ju _ _ _ _ _ _ (m_data M x81) _ _ _ _ u HC HQ.
have RS : rst r = rf_stability libstdcxx_partition (ms_nx M) (ms_ny M) (ms_nz M) (m_data M x81) e (m_Wx M x81 nil) (qjb q81) u.
  by move: RU; rewrite /rf_update; case: canonicalize => // c [<-].
have B j : (j < 2)%N -> mx u j <> dxl (m_data M x81) j /\ mx u j <> dxu (m_data M x81) j.
  by rewrite /= (Meq _ _ _ _ _ _ _ _ U) /vec; case: j => [|[|j]] //= _; split; rewrite ?/R1; lra.
have L2 : lagrangian (ms_ny M) (ms_nz M) e (m_Wx M x81 nil) u 2%N = 1.
  rewrite /lagrangian E3 E4 big_ord_recl big_ord0 W // mul0r !addr0.
  by rewrite /e /= /m_f (Meq _ _ _ _ _ _ _ _ U).
have U2 : In 2%N (status_ju (rst r)).
  rewrite RS; apply: (rf_ju_all HC HQ) => //; first by rewrite E1.
    by case.
  by left; rewrite L2 ltr01; split=> //; rewrite /= (Meq _ _ _ _ _ _ _ _ U).
have U01 j : (j < 2)%N -> ~ In j (status_ju (rst r)).
  move=> j2; rewrite RS => /JU; have [B1 B2] := B j j2.
  by case=> -[H _]; [apply: B1 | apply: B2].
have HX i j : (i < 2)%N -> eHxx e i j = if i == j then 1 else 0.
  rewrite /e /= /m_f (Meq _ _ _ _ _ _ _ _ U) /= /f81 /=; case: i => [|[|i]] // _; by case: j => [|[|[|j]]].
split.
- move=> du; rewrite E1 E2 E3 E4 => -[N1 N2 _ N4].
  have D2 : mx du 2%N = 0 by apply: N1.
  have S3 (f : nat -> RF) : \sum_(j < 3) f j = f 0%N + (f 1%N + f 2%N) by rewrite !big_ord_recl big_ord0 addr0.
  have S1 (f : nat -> RF) : \sum_(j < 1 + 0) f j = f 0%N by rewrite big_ord_recl big_ord0 addr0.
  have EQ i : (i < 2)%N -> mx du i + mw du 0%N = 0.
    move=> i2; have i3 : (i < 3)%N by apply: ltn_trans i2 _.
    have := N2 i i3 (U01 i i2).
    rewrite (S3 (fun j => eHxx e i j * mx du j)) (S1 (fun l => m_Wx M x81 nil l i * mw du l)) big_ord0 !HX // W // i2 D2.
    by case: i i2 i3 => [|[|i]] // _ _; rewrite !(mul1r, mul0r, mulr0, addr0, add0r).
  have R0 := EQ 0%N isT; have R1 := EQ 1%N isT.
  have R2 : mx du 0%N + mx du 1%N = 0.
    have := N4 0%N isT; rewrite (S3 (fun j => m_Wx M x81 nil 0%N j * mx du j)) big_ord0 !W // D2.
    by rewrite !(mul1r, mul0r, mulr0, addr0, add0r).
  have Dw : mw du 0%N = 0.
    have : mw du 0%N + mw du 0%N = 0 by rewrite -[RHS](addr0 0) -{1}R0 -R1 addrACA R2 add0r.
    by move/eqP; rewrite -mulr2n mulrn_eq0 => /eqP.
  by move: R0 R1; rewrite Dw !addr0 => D0 D1; split=> [[|[|[|i]]]|k|[|l]].
- by move=> k k0; rewrite mul0r normr_gt0.
- rewrite E3 E4; case=> // _; right; rewrite /roundoff !big_ord_recl !big_ord0 !addr0 normrM.
  apply: ler_pimull; first by rewrite mulr_ge0.
  have G (F : realFieldType) : (2 ^+ 52)^-1 <= 1 :> F by rewrite invf_le1 ?exprn_ege1 ?exprn_gt0 ?ler1n ?ltr0n.
  exact: G.
- move=> j; rewrite E1 => jl; split.
    case: j jl => [|[|[|j]]] jl // H; try lia; by case: (U01 _ _ H).
  have G : cgrad M y81 nil w81 0 = R0 /\ cgrad M y81 nil w81 1 = R0.
    by rewrite /cgrad E3 E4 (Meq _ _ _ _ _ _ _ _ U) /= /stacked /at_ /=; split; lra.
  by case: G; case: j jl => [|[|[|j]]] jl //; lia.
Qed.

Example C81_case : exists lu M r st',
  [/\ forall n (A : 'M[RF]_n), full_piv A (lu n A), update_master mem7 mem7 mem7 old7 old7 old7 P81 = Some M,
      u_solve libstdcxx_partition ech81 (fun a _ => (a, XNaN)) (w_newton M lu 0 Nullspace (fun w => (w, fin nil nil nil))) None None 1
        (Options 5 (XF R1) false) mem7 mem7 mem7 old7 old7 old7 (World tt q81 None XNaN) nil m0 P81 st81 = Some (r, st'),
      r_succeeded r = true /\ r_iterations r = 1%N &
      starts_at st' y81 nil nil nil w81 nil nil nil].
Proof.
have [lu LU] := lu_exists RF.
case U: (update_master mem7 mem7 mem7 old7 old7 old7 P81) => [M|//].
have [HE HI] := initial81 lu U.
have EM : [/\ ms_nx M = 3%N, ms_np M = 0%N, ms_ny M = 1%N & ms_nz M = 0%N] by rewrite (Meq _ _ _ _ _ _ _ _ U).
have [E1 E2 E3 E4] := EM.
have CF : conforming P81 by repeat split.
have OB : ordered_bounds P81 by split=> //; split; repeat constructor.
have BU : block_unspoiled mem7 old7 (p_dims P81) by right; left.
have LE a b : Rle a b -> rleb a b = true by move=> H; rewrite /rleb; case: Rle_dec.
have HH := @C81_user_partial libstdcxx_partition unit ech81 (fun a _ => (a, XNaN)) lu 0 Nullspace (fun w => (w, fin nil nil nil)) None 0
   (Options 5 (XF R1) false) mem7 mem7 mem7 old7 old7 old7 (World tt q81 None XNaN) nil m0 P81 M st81
   x81 nil nil nil (R0 :: nil) nil nil nil y81 nil nil nil w81 nil nil nil R1
   libstdcxx_contract CF OB BU U HE LU (lexx _).
have [|||||||||||||||||||||||r [st' [H1 [H2 [H3 H4]]]]] := HH.
- by [].
- by [].
- by [].
- by move=> [|[|[|i]]] /= Hi; rewrite ?LE //; rewrite /at_ /=; try lra; lia.
- by move=> i /= Hi; lia.
- by move=> i /= Hi; lia.
- by move=> i /= Hi; lia.
- by [].
- by [].
- by [].
- by [].
- by [].
- by [].
- by [].
- by [].
- split.
    split; first by case=> [|i] /= Hi; [rewrite /Wrapper_spec.lin /at_ /=; lra | lia].
    do 4![split; first by move=> i /= Hi; lia].
    split; last by move=> i /= Hi; lia.
    by move=> [|[|[|i]]] /= Hi; rewrite ?LE //; rewrite /at_ /=; try lra; lia.
  split; last by split=> i /= Hi; lia.
  move=> [|[|[|j]]] /= Hi; try lia.
  + by left; rewrite /at_ /=; lra.
  + by left; rewrite /at_ /=; lra.
  + by right; left; rewrite /at_ /=; split=> //; lra.
- by split=> i /= Hi; lia.
- split; last by do 2![split; first by split=> l /= *; lia]; move=> k /= Hk; lia.
  move=> [|[|[|j]]] /= Hi; try lia; rewrite /predicted /at_ /=; lra.
- by move=> a wt _; apply: HI.
- move=> a wt _; split; first by left.
  case=> [_|i /= Hi]; last by lia.
  have CM : cmag M (y81 ++ nil ++ nil) nil 0%N = IZR 4.
    by rewrite /cmag /ctarget E1 E2 E3 (Meq _ _ _ _ _ _ _ _ U) /= /cWx /= /stacked /at_ /= ?Rabs_R0 ?Rabs_R1 ?(Rabs_pos_eq (IZR 2)); lra.
  have SU : Wrapper_spec.sum (ms_ny M + ms_nz M)%coq_nat (fun l => Rmult (Rabs (qR q81 0%N l)) (cmag M (y81 ++ nil ++ nil) nil l)) = IZR 4.
    by rewrite E3 E4; cbn [Wrapper_spec.sum Nat.add]; rewrite CM Rabs_R1; lra.
  rewrite /row_room [Wrapper_spec.sum _ _]SU.
  have L : Rlt (pow 2 2) (pow 2 52) by apply: Rlt_pow; [lra | lia].
  have L4 : pow 2 2 = IZR 4 by rewrite /=; lra.
  rewrite L4 in L; move: (pow 2 52) L => t L.
  by apply: (Rmult_lt_reg_l t); [lra | rewrite -Rmult_assoc Rinv_r; lra].
- by [].
- by rewrite /=; lra.
- by rewrite /=; lia.
- by exists lu, M, r, st'; split.
Qed.

(** The hypotheses of C80 hold for the same problem at the origin *)
Example C80_case : exists lu M r, let u := MVec (vec x81 : rawvec RF) (vec nil) (vec (R0 :: nil)) in let e := m_evals M x81 nil in
  [/\ update_master mem7 mem7 mem7 old7 old7 old7 P81 = Some M /\ forall n (A : 'M[RF]_n), full_piv A (lu n A),
      echelon_of 3 0 1 e (m_Wx M x81 nil) (m_Wp M x81 nil) q81 /\ length (qjb q81) = 1%N,
      rf_update libstdcxx_partition 3 0 1 0 (m_data M x81) e (m_Wx M x81 nil) (m_Wp M x81 nil) q81 u = Some r,
      regular 3 0 1 e (m_Wx M x81 nil) (m_Wp M x81 nil) (fun j => In j (status_ju (rst r))) & newton_resolved lu 0 Nullspace 0 r].
Proof.
have [lu LU] := lu_exists RF.
case U: (update_master mem7 mem7 mem7 old7 old7 old7 P81) => [M|//].
have [HE [LQ HI]] := initial81 lu U.
have EM : [/\ ms_nx M = 3%N, ms_np M = 0%N, ms_ny M = 1%N & ms_nz M = 0%N] by rewrite (Meq _ _ _ _ _ _ _ _ U).
have [E1 E2 E3 E4] := EM.
have HQ := HE tt x81 nil (fun _ => 0).
rewrite /= E1 E2 E3 E4 in HI HQ.
have [r RU] := @rf_update_total RF libstdcxx_partition 3 0 1 0 (m_data M x81) _ _ _ _ (MVec (vec x81 : rawvec RF) (vec nil) (vec (R0 :: nil))) libstdcxx_contract HQ.
by have [H1 H2 _ _] := HI r RU; exists lu, M, r.
Qed.
