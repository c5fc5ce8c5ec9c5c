(** Property theorems C98: solving again from the state that a successful calculation returned. *)
From Coq Require Import List PeanoNat Permutation Reals Lra Lia.
From mathcomp Require Import all_ssreflect all_fingroup all_algebra.
From Verif Require Import Num Num_facts Index_model Index_spec Index_proofs Num_rf R_rf Echelon_model Echelon_spec LU_model LU_spec Linear_model Linear_spec Canonical_model Canonical_spec.
From Verif Require Import ResErr_model Residual_model Residual_spec Residual_proofs P_Residual Accept_proofs EchelonO_model EchelonO_spec EchelonO_proofs EchelonOEx_proofs Stay_proofs.
From Verif Require Import Loop_model Loop_spec Loop_proofs P_Loop Wrapper_model Wrapper_spec Wrapper_proofs P_Wrapper End_model End_spec Near_proofs End_proofs.
From Verif Require Import Newton_model Newton_spec Newton_proofs Exact_spec Exact_proofs P_Newton P_End P_EchelonO Pivot_spec Pivot_proofs Indep_proofs Status_spec P_Status P_Licq Convex_spec Convex_proofs Quadratic_spec P_Quadratic QuadEx_proofs Cycle_proofs Restart_proofs RestartEx_proofs.
Set Implicit Arguments.
Unset Strict Implicit.
Unset Printing Implicit Defensive.
Import Order.TTheory GRing.Theory Num.Theory.
Local Open Scope ring_scope.
Local Notation "l ++ l'" := (List.app l l') : seq_scope.

Section Run98.
Variables (s : R) (f1 f2 f3 : nat -> R) (oAx oAp obc : mat R) (M : master R xreal).
Hypothesis s0 : Rlt 0 s.
Hypothesis U : update_master f1 f2 f3 oAx oAp obc (P98 s) = Some M.
Variable part : partition_impl.
Hypothesis HC : partition_contract part.

Lemma EM98 : [/\ ms_nx M = 2%N, ms_np M = 0%N, ms_ny M = 1%N & ms_nz M = 0%N].
Proof. by rewrite (Meq _ _ _ _ _ _ _ _ U). Qed.
Lemma W98 z p j : (j < 2)%N -> m_Wx M z p 0%N j = if Nat.eqb j 1 then 1 else 0.
Proof. have [_ _ E3 _] := EM98; move=> j2; rewrite /m_Wx E3 /=; exact: (Ax98 _ _ _ _ _ _ _ _ _ U (ssrnat.ltP j2)). Qed.
Lemma sum2 (f : nat -> RF) : \sum_(j < 2) f j = f 0%N + f 1%N. Proof. by rewrite !big_ord_recl big_ord0 addr0. Qed.
Lemma sum1 (f : nat -> RF) : \sum_(j < 1 + 0) f j = f 0%N. Proof. by rewrite big_ord_recl big_ord0 addr0. Qed.

(** the Newton step *)
Lemma newton98 E ech nonfinite lus meth failed (v : world E) (u y : R) : let x := u :: R0 :: nil in
  ech_contract M ech -> (forall a wt, qjb (ech a (m_Wx M x nil) (m_Wp M x nil) wt).2 = 1%N :: nil) ->
  (forall n (A : 'M[RF]_n), full_piv A (lus n A)) -> meth <> Rangespace ->
  exists dx dw, (w_newton M lus 0 meth failed (w_update part M ech nonfinite v (fin x nil (y :: nil)))).2 = fin dx nil (dw :: nil) /\ length dx = 2%N /\
    (forall i, (i < 2)%coq_nat -> Rplus (List.nth i x R0) (List.nth i dx R0) = List.nth i (Ropp (pow u 3) :: R0 :: nil) R0) /\ Rplus y dw = R0.
Proof.
move=> x HE JQ LUS NR.
have [E1 E2 E3 E4] := EM98.
have [q [r [[a [wt [WT Eq]]] HQ RU R1' _]]] := w_update_fin nonfinite v x nil (y :: nil) HC HE.
have JB : qjb q = 1%N :: nil by rewrite Eq; exact: JQ.
set ev := m_evals M _ nil in HQ RU; set uv := MVec _ _ _ in RU.
have [_ _ _ JU] := @rf_ju _ _ _ _ _ _ (m_data M x) _ _ _ _ uv HC HQ.
have RS : rst r = rf_stability part (ms_nx M) (ms_ny M) (ms_nz M) (m_data M x) ev (m_Wx M x nil) (qjb q) uv.
  by move: RU; rewrite /rf_update; case: canonicalize => // c [<-].
have LG j : (j < 2)%N -> lagrangian (ms_ny M) (ms_nz M) ev (m_Wx M x nil) uv j = List.nth j (Rdiv (Rmult s u) (rt u) :: y :: nil) R0.
  move=> jl; rewrite /lagrangian E3 E4 (sum1 (fun l => m_Wx _ _ _ l j * _ l)) W98 // /ev /= /m_f (Meq _ _ _ _ _ _ _ _ U) /= /vec /=.
  by case: j jl => [|[|j]] //= _; rewrite ?mul1r ?mul0r /at_ /= -?[0]/R0 ?addr0 ?add0r.
have HX i j : (i < 2)%N -> (j < 2)%N -> eHxx ev i j = List.nth j (List.nth i ((Rdiv s (pow (rt u) 3) :: R0 :: nil) :: (R0 :: R1 :: nil) :: nil) nil) R0.
  by rewrite /ev /= /m_f (Meq _ _ _ _ _ _ _ _ U); case: i => [|[|i]] // _; case: j => [|[|j]].
have FR j : (j < 2)%N -> ~ In j (status_ju (rst r)).
  move=> jl; rewrite RS => /JU; rewrite /= (Meq _ _ _ _ _ _ _ _ U) /vec => H.
  by move: H => [[H1 _]|[H1 _]]; move: H1; case: j jl => [|[|j]] //= _; rewrite ?R_addE ?R_oppE -?[1]/R1 => H1; lra.
have LQ : length (qjb q) = (ms_ny M + ms_nz M)%N by rewrite JB E3 E4.
have EQS a0 c du : newton_eqs 2 0 (1 + 0) ev (m_Wx M x nil) (m_Wp M x nil) (fun j => In j (status_ju (rst r))) a0 (fun _ => 0) c du ->
  [/\ (Rdiv s (pow (rt u) 3) : RF) * mx du 0%N = a0 0%N, mx du 1%N + mw du 0%N = a0 1%N & mx du 1%N = c 0%N].
  move=> [N1 N2 _ N4].
  have Q0 := N2 0%N isT (FR 0%N isT); have Q1 := N2 1%N isT (FR 1%N isT); have Q2 := N4 0%N isT.
  move: Q0 Q1 Q2.
  rewrite (sum2 (fun j => eHxx _ 0%N j * mx du j)) (sum2 (fun j => eHxx _ 1%N j * mx du j)) (sum2 (fun j => m_Wx _ _ _ 0%N j * mx du j)).
  rewrite (sum1 (fun l => m_Wx _ _ _ l 0%N * mw du l)) (sum1 (fun l => m_Wx _ _ _ l 1%N * mw du l)) !big_ord0 !HX // !W98 //=.
  by rewrite -?[R0]/(0 : RF) -?[R1]/(1 : RF) !(mul1r, mul0r, addr0, add0r) => -> -> ->.
have r1 := rt_ge1 u; have rq := rt_sq u.
have h0 : Rdiv s (pow (rt u) 3) <> R0.
  apply: Rgt_not_eq; apply: Rdiv_lt_0_compat => //; apply: pow_lt; lra.
have RG : regular (ms_nx M) (ms_np M) (ms_ny M + ms_nz M) ev (m_Wx M x nil) (m_Wp M x nil) (fun j => In j (status_ju (rst r))).
  move=> du; rewrite E1 E2 E3 E4 => /EQS [Q1 Q2 Q3].
  rewrite Q3 add0r in Q2.
  have P0 : mx du 0%N = 0 by move/eqP: Q1; rewrite mulf_eq0 => /orP [/eqP|/eqP].
  by split=> [[|[|i]]|k|[|l]].
have NRS : newton_resolved lus 0 meth (ms_np M) r.
  by rewrite /newton_resolved; case: (meth) NR => // _ k k0; rewrite mul0r normr_gt0.
have CL i : (i < ms_ny M + ms_nz M)%N -> no_cancellation (ms_ny M) (ms_nz M) (kR (rc r)) (rv_awstar (ms_np M) (ms_ny M) (m_data M x) ev (rM r) (rc r) uv) i.
  rewrite E3 E4; case: i => // _; right; rewrite /roundoff !big_ord_recl !big_ord0 !addr0 normrM.
  apply: ler_pimull; first by rewrite mulr_ge0.
  have G' (F : realFieldType) : (2 ^+ 52)^-1 <= 1 :> F by rewrite invf_le1 ?exprn_ege1 ?exprn_gt0 ?ler1n ?ltr0n.
  exact: G'.
have [du ED ND] := newton_ok LUS (lexx _) HC HQ RU LQ RG NRS (fun _ => 0).
have EN : w_newton M lus 0 meth failed (w_update part M ech nonfinite v (fin x nil (y :: nil))) =
   (w_update part M ech nonfinite v (fin x nil (y :: nil)), UVec (List.map XF (vlist (ms_nx M) (mx du))) (List.map XF (vlist (ms_np M) (mp du))) (List.map XF (vlist (ms_ny M + ms_nz M) (mw du)))).
  by rewrite /w_newton R1' ED.
have LG' := LG; rewrite E3 E4 in LG'.
have ND' : newton_eqs (ms_nx M) (ms_np M) (ms_ny M + ms_nz M) ev (m_Wx M x nil) (m_Wp M x nil) (fun j => In j (status_ju (rst r)))
     (fun i => - lagrangian (ms_ny M) (ms_nz M) ev (m_Wx M x nil) uv i) (fun k => 0)
     (constraint_left (ms_nx M) (ms_np M) (ms_ny M) (m_data M x) ev (m_Wx M x nil) (m_Wp M x nil) uv) du.
  case: ND => N1 N2 N3 N4; split=> //; first by rewrite E2.
  by move=> l ll; rewrite N4 // (cleaned_exact HC HQ RU LQ CL) addr0.
move: ND'; rewrite E1 E2 E3 E4 => /EQS [Q1 Q2 Q3].
exists (vlist 2 (mx du)), (mw du 0%N).
rewrite EN E1 E2 E3 E4 length_vlist; do 2![split=> //].
have C0 : mx du 1%N = 0.
  rewrite Q3 /constraint_left big_ord0 (sum2 (fun j => m_Wx _ _ _ 0%N j * _ j)) !W98 //= (Meq _ _ _ _ _ _ _ _ U) /= /vec /=.
  by rewrite ?R_mulE ?R_addE ?R_oppE -?[0]/R0; lra.
move: Q1 Q2; rewrite C0 !LG' //= add0r ?R_mulE ?R_oppE => Q1 Q2.
have X0 : mx du 0%N = Ropp (Rmult u (Rmult (rt u) (rt u))).
  have : Rmult (Rdiv s (pow (rt u) 3)) (mx du 0%N) = Rmult (Rdiv s (pow (rt u) 3)) (Ropp (Rmult u (Rmult (rt u) (rt u)))).
    rewrite Q1; field; lra.
  by move=> H; exact: (Rmult_eq_reg_l _ _ _ H h0).
split; last by rewrite Q2; lra.
move=> i /ssrnat.ltP il.
case: i il => [|[|i]] //= _; last by rewrite C0 -?[0]/R0; lra.
rewrite X0 rq; ring.
Qed.

Variables (lu : lu_impl RF) (srt : sort_impl RF) (th sigma : RF).
Hypothesis LC : lu_correct lu.
Hypothesis SC : sort_correct srt.
Hypothesis th0 : 0 <= th.
Notation ech := (the_ech lu srt th sigma M).

Lemma HE98 : ech_contract M ech.
Proof. exact: C83_contract. Qed.
Lemma JQ98 h (x : list R) wt : length x = 2%N -> qjb (ech h (m_Wx M x nil) (m_Wp M x nil) wt).2 = 1%N :: nil.
Proof.
have [E1 E2 E3 E4] := EM98.
move=> Lx; set q := (the_ech _ _ _ _ _ _ _ _ _).2.
have IE : independent_equalities (P98 s) x nil.
  by move: Lx; case: x q => [|a [|b [|]]] // _ _; apply: (licq_independent _ _ nil nil); exact: licq98.
have BU : block_unspoiled f1 oAx (p_dims (P98 s)) by right; left.
have LQ : length (qjb q) = 1%N.
  rewrite /q -[in m_Wx M x nil](List.app_nil_r x) -[in m_Wp M x nil](List.app_nil_r x).
  exact: (@the_ech_full lu srt th sigma _ _ _ _ _ _ (P98 s) M x nil nil nil h wt LC SC th0 U BU Lx erefl erefl IE).
have [PQ QE _ _] := HE98 h x nil wt nil.
have := QE 0%N 0%N; rewrite -/q LQ E3 E4 => /(_ isT isT).
have J4 : (ix (qjb q) 0 < 2)%N.
  have : In (ix (qjb q) 0) (indices (ms_nx M)).
    apply: (Permutation_in _ (Permutation_sym PQ)); apply/in_app_iff; left; rewrite -/q /ix; apply: nth_In; rewrite LQ; lia.
  by rewrite /indices E1 => /in_seq [_ /ssrnat.ltP].
rewrite big_ord_recl big_ord0 /= W98 // addr0.
case: Nat.eqb_spec => [J3 _|_ /eqP]; last by rewrite mulr0 eq_sym oner_eq0.
by move: LQ J3; rewrite /ix; case: (qjb q) => [|j [|]] //= _ ->.
Qed.

(** the error at (8, 0) *)
Lemma err98 nonfinite v tol : Rle (Rmult s (Rdiv 397 400)) tol ->
  nltb (w_err (w_update part M ech nonfinite v (fin (IZR 8 :: R0 :: nil) nil (R0 :: nil)))) (XF tol) = true.
Proof.
have [E1 E2 E3 E4] := EM98; set x := IZR 8 :: _ => T.
have [q [r [[a [wt [WT Eq]]] HQ RU _ ->]]] := w_update_fin nonfinite v x nil (R0 :: nil) HC HE98.
have JB : qjb q = 1%N :: nil by rewrite Eq; exact: JQ98.
have G := grad_small s s0.
have t0 : Rlt 0 tol by apply: Rlt_le_trans T; apply: Rmult_lt_0_compat => //; lra.
rewrite /= /rltb; case: Rlt_dec => // -[]; apply/R_ltP.
apply: (small_error HC HQ RU).
- by apply/R_ltP.
- by left; rewrite JB.
- rewrite E1; case=> [|[|i]] // _; left; left; rewrite /lagrangian E3 E4 (sum1 (fun l => m_Wx _ _ _ l _ * _ l)) W98 //=;
    rewrite /m_f (Meq _ _ _ _ _ _ _ _ U) /= /at_ /= /vec /=.
  + rewrite mul0r addr0; apply/R_ltP; apply: Rlt_le_trans T; exact: G.
  + by rewrite mul1r addr0 normr0; apply/R_ltP.
- by rewrite E2.
- rewrite JB; case=> // _.
  have CL l : (l < ms_ny M + ms_nz M)%N -> constraint_left (ms_nx M) (ms_np M) (ms_ny M) (m_data M x) (m_evals M x nil) (m_Wx M x nil) (m_Wp M x nil) (MVec (vec x) (vec nil) (vec (R0 :: nil))) l = 0.
    rewrite E1 E2 E3 E4; case: l => // _; rewrite /constraint_left !big_ord0 (sum2 (fun j => m_Wx _ _ _ 0%N j * _ j)) !W98 //= (Meq _ _ _ _ _ _ _ _ U) /=.
    by rewrite ?R_mulE ?R_addE ?R_oppE -?[0]/R0 -?[1]/R1 /vec /x /=; lra.
  rewrite /combined big1 ?normr0 ?add0r; last by move=> l _; rewrite CL ?mulr0.
  suff -> : roundoff (ms_ny M) (ms_nz M) (kR (rc r)) (rv_awstar (ms_np M) (ms_ny M) (m_data M x) (m_evals M x nil) (rM r) (rc r) (MVec (vec x) (vec nil) (vec (R0 :: nil)))) 0 = 0 by apply/R_ltP.
  rewrite /roundoff big1 ?mulr0 // => l _.
  suff -> : `|rv_awstar (ms_np M) (ms_ny M) (m_data M x) (m_evals M x nil) (rM r) (rc r) (MVec (vec x) (vec nil) (vec (R0 :: nil))) l| = 0 by rewrite mulr0.
  apply/eqP; rewrite eq_le normr_ge0 andbT; apply: le_trans (cmag_ge HC HQ l RU) _; apply/R_leP.
  have -> : nat_of_ord l = 0%N by case: l => l /=; rewrite E3 E4; case: l.
  rewrite /cmag E1 E2 (target98 _ _ _ _ _ _ _ _ _ U); cbn [Wrapper_spec.sum].
  rewrite /cWx E3 /= !(Ax98 _ _ _ _ _ _ _ _ _ U); [|lia|lia].
  rewrite /at_ /= !Rabs_R0 !Rmult_0_l !Rmult_0_r !Rplus_0_r; exact: Rle_refl.
Qed.
End Run98.

(** from (-2, 0) one iteration leads to (8, 0), reported as success *)
Lemma first98 part lu srt th sigma nonfinite lus meth failed check fuel o f1 f2 f3 oAx oAp obc w0 hist m s M st y tol :
  partition_contract part -> lu_correct lu -> sort_correct srt -> (0 : RF) <= th -> (forall n (A : 'M[RF]_n), full_piv A (lus n A)) -> meth <> Rangespace ->
  Rlt 0 s -> update_master f1 f2 f3 oAx oAp obc (P98 s) = Some M -> starts_at st (IZR (-2) :: R0 :: nil) nil nil nil (y :: nil) nil nil nil ->
  o_tol o = XF tol -> Rle (Rmult s (Rdiv 397 400)) tol -> (1 <= o_maxiters o)%coq_nat ->
  exists r st', u_solve part (the_ech lu srt th sigma M) nonfinite (w_newton M lus 0 meth failed) None check (S fuel) o f1 f2 f3 oAx oAp obc w0 hist m (P98 s) st = Some (r, st') /\
    r_succeeded r = true /\ r_iterations r = 1%N /\ starts_at st' (IZR 8 :: R0 :: nil) nil nil nil (R0 :: nil) nil nil nil.
Proof.
move=> HC LC SC th0 LUS NR s0 U ST TOL T MX.
have HE : ech_contract M (the_ech lu srt th sigma M) by exact: C83_contract.
set x := IZR (-2) :: R0 :: nil in ST; set x' := IZR 8 :: R0 :: nil.
have NW v := @newton98 s f1 f2 f3 oAx oAp obc M s0 U part HC _ (the_ech lu srt th sigma M) nonfinite lus meth failed v (IZR (-2)) y HE
  (fun a wt => @JQ98 _ _ _ _ _ _ _ _ U lu srt th sigma LC SC th0 a x wt erefl) LUS NR.
have LB : [/\ xlo (m_bounds M) = XNInf :: XNInf :: nil, xhi (m_bounds M) = XPInf :: XPInf :: nil, plo (m_bounds M) = nil & phi_ (m_bounds M) = nil] by rewrite (Meq _ _ _ _ _ _ _ _ U).
have [B1 B2 B3 B4] := LB.
have IN z : length z = 2%N -> all_inside (XNInf :: XNInf :: nil) (XPInf :: XPInf :: nil) z by move=> L [|[|i]] Hi; rewrite L in Hi; try (exfalso; lia); split.
have [|||||||||||||r [S [Us _]]] := @solve_one_step _ (w_update part M (the_ech lu srt th sigma M) nonfinite) (fun w _ => w_err w) (w_newton M lus 0 meth failed) check (m_bounds M) o
   x nil (y :: nil) x' nil (R0 :: nil) _ _ _ _ _ _ _ _ _ _ _ _ _ MX fuel w0 hist; rewrite ?B1 ?B2 ?B3 ?B4 //.
- exact: IN.
- by move=> i /= Hi; exfalso; lia.
- exact: IN.
- by move=> i /= Hi; exfalso; lia.
- move=> v; have [dx [dw [H1 [H2 [H3 H4]]]]] := NW v.
  exists dx, nil, (dw :: nil); do 4![split=> //]; split.
    move=> i Hi; rewrite -/x in H3; rewrite H3 //; case: i Hi => [|[|i]] //= Hi; ring.
  by split=> [i /= Hi|[|i] /= Hi] //; exfalso; lia.
- by move=> v; rewrite TOL; apply: (@err98 _ _ _ _ _ _ _ _ s0 U _ HC lu srt th sigma LC SC th0).
have [st' [S' H]] := @lift_run part _ (the_ech lu srt th sigma M) nonfinite (w_newton M lus 0 meth failed) None check fuel.+1 o f1 f2 f3 oAx oAp obc w0 hist m (P98 s) M st
  x nil nil nil (y :: nil) nil nil nil x' nil nil nil (R0 :: nil) nil nil nil _ r U ST erefl erefl erefl erefl erefl erefl erefl S Us.
by exists (Result true 1 nzero), st'.
Qed.

(** from (8, 0) the variable x0 moves away for ever *)
Lemma second98 part lu srt th sigma nonfinite lus meth failed fuel o f1 f2 f3 oAx oAp obc w0 hist m s M st y tol :
  partition_contract part -> lu_correct lu -> sort_correct srt -> (0 : RF) <= th -> Rlt th 1 -> (forall n (A : 'M[RF]_n), full_piv A (lus n A)) -> meth <> Rangespace ->
  (forall w, sized 2 0 1 (failed w).2) ->
  Rlt 0 s -> update_master f1 f2 f3 oAx oAp obc (P98 s) = Some M -> starts_at st (IZR 8 :: R0 :: nil) nil nil nil (y :: nil) nil nil nil ->
  o_tol o = XF tol -> Rle tol (Rmult s (Rdiv 399 400)) -> (o_maxiters o < fuel)%coq_nat ->
  exists r st' u y', u_solve part (the_ech lu srt th sigma M) nonfinite (w_newton M lus 0 meth failed) None None fuel o f1 f2 f3 oAx oAp obc w0 hist m (P98 s) st = Some (r, st') /\
    r_succeeded r = false /\ r_iterations r = S (o_maxiters o) /\ starts_at st' (u :: R0 :: nil) nil nil nil (y' :: nil) nil nil nil /\ Rle 512 (Rabs u).
Proof.
move=> HC LC SC th0 th1 LUS NR FS s0 U ST TOL T FU.
have CF : conforming (P98 s) by repeat split.
have OB : ordered_bounds (P98 s) by split=> //; split; repeat constructor.
have BU : block_unspoiled f1 oAx (p_dims (P98 s)) by right; left.
have HE : ech_contract M (the_ech lu srt th sigma M) by exact: C83_contract.
have [E1 E2 E3 E4] := EM98 U.
have LB : [/\ xlo (m_bounds M) = XNInf :: XNInf :: nil, xhi (m_bounds M) = XPInf :: XPInf :: nil, plo (m_bounds M) = nil & phi_ (m_bounds M) = nil] by rewrite (Meq _ _ _ _ _ _ _ _ U).
have [B1 B2 B3 B4] := LB.
have IN z : length z = 2%N -> all_inside (XNInf :: XNInf :: nil) (XPInf :: XPInf :: nil) z by move=> L [|[|i]] Hi; rewrite L in Hi; try (exfalso; lia); split.
have AP : all_inside nil nil nil by move=> i /= Hi; exfalso; lia.
pose J (x p w : list R) := p = nil /\ (exists t, w = t :: nil) /\ exists u, x = u :: R0 :: nil /\ Rle 512 (Rabs u).
pose I (x p w : list R) := p = nil /\ (exists t, w = t :: nil) /\ exists u, x = u :: R0 :: nil /\ Rle 512 (Rabs (Ropp (pow u 3))).
have JI x p w : J x p w -> I x p w by move=> [H1 [H2 [u [H3 H4]]]]; split=> //; split=> //; exists u; split=> //; exact: cube_large.
have CL x p w : I x p w -> clampu (m_bounds M) (fin x p w) = fin x p w.
  by move=> [-> [[t ->] [u [-> _]]]]; apply: clampu_id; rewrite ?B1 ?B2 ?B3 ?B4 //; exact: IN.
have NW x p w v : I x p w -> exists dx dp dy x' p' y',
  (w_newton M lus 0 meth failed (w_update part M (the_ech lu srt th sigma M) nonfinite v (fin x p w))).2 = fin dx dp dy /\ J x' p' y' /\
  backtrack (o_fix o) (m_bounds M) (fin x p w) (UVec (map2 nadd (List.map XF x) (List.map XF dx)) (map2 nadd (List.map XF p) (List.map XF dp)) (map2 nadd (List.map XF w) (List.map XF dy))) = fin x' p' y'.
  move=> [-> [[t ->] [u [-> H]]]].
  have [dx [dw [D1 [D2 [D3 D4]]]]] := @newton98 s f1 f2 f3 oAx oAp obc M s0 U part HC _ (the_ech lu srt th sigma M) nonfinite lus meth failed v u t HE
    (fun a wt => @JQ98 _ _ _ _ _ _ _ _ U lu srt th sigma LC SC th0 a (u :: R0 :: nil) wt erefl) LUS NR.
  exists dx, nil, (dw :: nil), (Ropp (pow u 3) :: R0 :: nil), nil, (Rplus t dw :: nil); split; first exact: D1.
  split; first by split=> //; split; [exists (Rplus t dw) | exists (Ropp (pow u 3))].
  rewrite (@add_step _ _ (Ropp (pow u 3) :: R0 :: nil)) //.
  apply: (@backtrack_held (m_bounds M) (o_fix o) (u :: R0 :: nil) (Ropp (pow u 3) :: R0 :: nil) (Ropp (pow u 3) :: R0 :: nil) nil nil nil (t :: nil) (Rplus t dw :: nil)); rewrite ?B1 ?B2 ?B3 ?B4 //; try exact: IN.
    by split=> //; split=> // i Hi; left; split=> //; apply: (IN (Ropp (pow u 3) :: R0 :: nil)).
  by split=> //; split=> // i /= Hi; exfalso; lia.
have I0 : I (IZR 8 :: R0 :: nil) nil (y :: nil).
  split=> //; split; first by exists y.
  by exists (IZR 8); split=> //; rewrite Rabs_Ropp Rabs_pos_eq; rewrite /=; lra.
have [r [w [S [[r1 r2] _]]]] := C48_terminates_partial _ _ _ (w_update part M (the_ech lu srt th sigma M) nonfinite) (fun w _ => w_err w) (w_newton M lus 0 meth failed) None None (m_bounds M) o fuel w0 hist (fin (IZR 8 :: R0 :: nil) nil (y :: nil)) FU.
have [x' [p' [y' [Us [Ep [[t Et] [u [Ex Hu]]]]]]]] := solve_moves _ _ _ _ _ _ _ _ JI CL NW _ _ _ _ _ _ _ _ I0 S.
rewrite Ep Et Ex in Us.
have [st' [S' H]] := @lift_run part _ (the_ech lu srt th sigma M) nonfinite (w_newton M lus 0 meth failed) None None fuel o f1 f2 f3 oAx oAp obc w0 hist m (P98 s) M st
  (IZR 8 :: R0 :: nil) nil nil nil (y :: nil) nil nil nil (u :: R0 :: nil) nil nil nil (t :: nil) nil nil nil r w U ST erefl erefl erefl erefl erefl erefl erefl S Us.
exists r, st', u, t; split; first exact: S'.
have NS : r_succeeded r = false.
  case OK: (r_succeeded r) => //; exfalso.
  have NZ v : sized (nxbar (p_dims (P98 s))) (d_p (p_dims (P98 s))) (ny (p_dims (P98 s)) + nz (p_dims (P98 s))) (w_newton M lus 0 meth failed v).2.
    rewrite /w_newton; case: (w_res v) => [rr|]; last exact: FS.
    case: (newton_dir _ _ _ _ _ _) => [du|]; last exact: FS.
    rewrite /sized; cbn [ux up uw]; rewrite !List.map_length !List.seq_length E1 E2 E3 E4; by [].
  have WP : well_pivoted th M ((u :: R0 :: nil) ++ nil ++ nil) nil.
    apply: well_pivoted_row => //; first by rewrite E3 E4.
    move=> j; rewrite E1 => /ssrnat.ltP jl; rewrite (W98 U) //; case: Nat.eqb; [right; exact: Rabs_R1 | by left].
  have SS : state_sized (p_dims (P98 s)) st.
    by rewrite /state_sized; have [-> [-> [-> [_ [-> [-> [-> ->]]]]]]] := ST.
  have [UN _] := @C85_success_partial part lu srt th sigma nonfinite (w_newton M lus 0 meth failed) None fuel o f1 f2 f3 oAx oAp obc w0 hist m (P98 s) M st r st' tol
     (u :: R0 :: nil) nil nil nil (t :: nil) nil nil nil HC LC SC th0 CF OB BU U SS ltac:(by case: ST => _ [_ [_ [-> _]]]) NZ ltac:(by []) TOL S' OK H (licq98 s u R0) WP.
  exact: (not_near98 s tol nil u t s0 T Hu UN).
split=> //; split; last by split.
move: S NS r2; rewrite /solve; case: (loop _ _ _ _ _ _ _ _ _ _) => [s1|//] [<- _] /=.
by move/Nat.leb_gt; lia.
Qed.

(** ** C98.  For every tolerance tol there is a problem, convex with one affine constraint, with smooth functions of correct
    derivatives, independent constraints and exactly one minimiser, for which this happens: from (-2, 0) solve reports success after one iteration,
    and solving the same problem again with the same options from the state that it returned fails, however many iterations are allowed.
    Every iteration takes a step before it looks at the error (MasterSolver.cpp:119): the error of the
    initial state is below the tolerance, that of all later iterates is not, and these move away for ever. *)
Theorem C98_refuted : forall tol, Rlt 0 tol -> exists P,
  conforming P /\ ordered_bounds P /\ convex_problem P 0 nil /\
  (forall a b, derivable_pt_lim (fun t => o_fx (ovalue (uf P) (t :: b :: nil) nil nil) 0) a (o_fxx (ovalue (uf P) (a :: b :: nil) nil nil) 0%N 0%N)) /\
  (minimises P nil (R0 :: R0 :: nil) /\ forall x, length x = 2%N -> minimises P nil x -> x = R0 :: R0 :: nil) /\
  (forall a b, licq P (a :: b :: nil) nil nil nil) /\
  forall part lu srt th sigma nonfinite lus meth failed fuel o f1 f2 f3 oAx oAp obc w0 hist m M st y,
    partition_contract part -> lu_correct lu -> sort_correct srt -> Rle 0 th -> Rlt th 1 -> (forall n (A : 'M[RF]_n), full_piv A (lus n A)) -> meth <> Rangespace ->
    (forall w, sized 2 0 1 (failed w).2) -> update_master f1 f2 f3 oAx oAp obc P = Some M ->
    starts_at st (IZR (-2) :: R0 :: nil) nil nil nil (y :: nil) nil nil nil ->
    o_tol o = XF tol -> (1 <= o_maxiters o)%coq_nat ->
    exists r st', u_solve part (the_ech lu srt th sigma M) nonfinite (w_newton M lus 0 meth failed) None None (S fuel) o f1 f2 f3 oAx oAp obc w0 hist m P st = Some (r, st') /\
      r_succeeded r = true /\
      forall fuel' f1' f2' f3' oAx' oAp' obc' w0' hist' m' M', update_master f1' f2' f3' oAx' oAp' obc' P = Some M' -> (o_maxiters o < fuel')%coq_nat ->
      exists r' st'' u y', u_solve part (the_ech lu srt th sigma M') nonfinite (w_newton M' lus 0 meth failed) None None fuel' o f1' f2' f3' oAx' oAp' obc' w0' hist' m' P st' = Some (r', st'') /\
        r_succeeded r' = false /\ r_iterations r' = S (o_maxiters o) /\ starts_at st'' (u :: R0 :: nil) nil nil nil (y' :: nil) nil nil nil /\ Rle 512 (Rabs u).
Proof.
move=> tol t0; pose s := Rmult tol (Rdiv 200 199); exists (P98 s).
have s0 : Rlt 0 s by rewrite /s; apply: Rmult_lt_0_compat; lra.
have T1 : Rle (Rmult s (Rdiv 397 400)) tol by rewrite /s; lra.
have T2 : Rle tol (Rmult s (Rdiv 399 400)) by rewrite /s; lra.
split; first by repeat split.
split; first by split=> //; split; repeat constructor.
split; first exact: convex98.
split; first exact: hessian98.
split; first exact: minimises98.
split; first exact: licq98.
move=> part lu srt th sigma nonfinite lus meth failed fuel o f1 f2 f3 oAx oAp obc w0 hist m M st y HC LC SC th0' th1 LUS NR FS U ST TOL MX.
have th0 : (0 : RF) <= th by apply/R_leP.
have [r [st' [S1 [S2 [_ S3]]]]] := first98 sigma nonfinite failed None fuel w0 hist m HC LC SC th0 LUS NR s0 U ST TOL T1 MX.
exists r, st'; split=> //; split=> // fuel' f1' f2' f3' oAx' oAp' obc' w0' hist' m' M' U' FU.
exact: (second98 sigma nonfinite w0' hist' m' HC LC SC th0 th1 LUS NR FS s0 U' S3 TOL T2 FU).
Qed.
Print Assumptions C98_refuted.

(** For example the default tolerance 1e-8 and 200 iterations, twice. *)
Definition st98 : ustate xreal := UState (Dims 2 0 1 0 0 0 0) (XF (IZR (-2)) :: XF R0 :: nil) nil (XF R0 :: nil) nil nil nil nil nil nil nil nil nil nil nil nil.
Example C98_case : let o := Options 200 (XF (Rinv (pow 10 8))) false in exists P lu srt lus M r st' r' st'',
  [/\ lu_correct lu /\ sort_correct srt, update_master mem7 mem7 mem7 old7 old7 old7 P = Some M,
      u_solve libstdcxx_partition (the_ech lu srt 0 0 M) (fun a _ => (a, XNaN)) (w_newton M lus 0 Nullspace (fun w => (w, fin (R0 :: R0 :: nil) nil (R0 :: nil)))) None None 201
        o mem7 mem7 mem7 old7 old7 old7 w83 nil m0 P st98 = Some (r, st') /\ r_succeeded r = true &
      u_solve libstdcxx_partition (the_ech lu srt 0 0 M) (fun a _ => (a, XNaN)) (w_newton M lus 0 Nullspace (fun w => (w, fin (R0 :: R0 :: nil) nil (R0 :: nil)))) None None 201
        o mem7 mem7 mem7 old7 old7 old7 w83 nil m0 P st' = Some (r', st'') /\ r_succeeded r' = false].
Proof.
move=> o; have [lu LC] := lu_correct_exists RF; have [srt SC] := sort_correct_exists RF; have [lus LUS] := lu_exists RF.
have T0 : Rlt 0 (Rinv (pow 10 8)) by apply: Rinv_0_lt_compat; apply: pow_lt; lra.
pose s := Rmult (Rinv (pow 10 8)) (Rdiv 200 199).
have s0 : Rlt 0 s by rewrite /s; apply: Rmult_lt_0_compat; lra.
have T1 : Rle (Rmult s (Rdiv 397 400)) (Rinv (pow 10 8)) by rewrite /s; move: T0; set t := Rinv _; lra.
have T2 : Rle (Rinv (pow 10 8)) (Rmult s (Rdiv 399 400)) by rewrite /s; move: T0; set t := Rinv _; lra.
have [M U] : exists M, update_master mem7 mem7 mem7 old7 old7 old7 (P98 s) = Some M by eexists; reflexivity.
have [r [st' [S1 [S2 [_ S3]]]]] := @first98 libstdcxx_partition lu srt 0 0 (fun a _ => (a, XNaN)) lus Nullspace (fun w => (w, fin (R0 :: R0 :: nil) nil (R0 :: nil))) None 200
  o mem7 mem7 mem7 old7 old7 old7 w83 nil m0 s M st98 R0 (Rinv (pow 10 8)) (@libstdcxx_contract) LC SC (lexx _) LUS ltac:(by []) s0 U ltac:(by []) erefl T1 ltac:(rewrite /=; lia).
have [r' [st'' [u [y' [S4 [S5 _]]]]]] := @second98 libstdcxx_partition lu srt 0 0 (fun a _ => (a, XNaN)) lus Nullspace (fun w => (w, fin (R0 :: R0 :: nil) nil (R0 :: nil))) 201
  o mem7 mem7 mem7 old7 old7 old7 w83 nil m0 s M st' R0 (Rinv (pow 10 8)) (@libstdcxx_contract) LC SC (lexx _) Rlt_0_1 LUS ltac:(by []) ltac:(by []) s0 U S3 erefl T2 ltac:(rewrite /=; lia).
by exists (P98 s), lu, srt, lus, M, r, st', r', st''.
Qed.

(** ** C98 for equality-constrained strictly convex quadratic programs: solving again succeeds after one iteration at the
    same point. *)
Theorem C98_quadratic_partial : forall part lu srt th sigma nonfinite lus meth failed check fuel o f1 f2 f3 oAx oAp obc w0 hist m P M st H c x y tol,
  partition_contract part -> lu_correct lu -> sort_correct srt -> 0 <= th -> (forall n (A : 'M[RF]_n), full_piv A (lus n A)) -> meth <> Rangespace ->
  conforming P -> equalities_only P -> quadratic P H c -> positive_along P H -> independent_rows P -> basic_uncancelled P ->
  update_master f1 f2 f3 oAx oAp obc P = Some M -> state_sized (p_dims P) st -> starts_at st x nil nil nil y nil nil nil ->
  o_tol o = XF tol -> Rlt R0 tol -> (1 <= o_maxiters o)%coq_nat ->
  exists r st' x' y', u_solve part (the_ech lu srt th sigma M) nonfinite (w_newton M lus 0 meth failed) None check (S fuel) o f1 f2 f3 oAx oAp obc w0 hist m P st = Some (r, st') /\
    r_succeeded r = true /\ starts_at st' x' nil nil nil y' nil nil nil /\
    forall fuel' f1' f2' f3' oAx' oAp' obc' w0' hist' m' M', update_master f1' f2' f3' oAx' oAp' obc' P = Some M' ->
    exists r' st'' y'', u_solve part (the_ech lu srt th sigma M') nonfinite (w_newton M' lus 0 meth failed) None check (S fuel') o f1' f2' f3' oAx' oAp' obc' w0' hist' m' P st' = Some (r', st'') /\
      r_succeeded r' = true /\ r_iterations r' = 1%N /\ starts_at st'' x' nil nil nil y'' nil nil nil.
Proof.
move=> part lu srt th sigma nonfinite lus meth failed check fuel o f1 f2 f3 oAx oAp obc w0 hist m P M st H c x y tol.
move=> HC LC SC th0 LUS NR CF EO QQ PD IR BU U SS ST TOL t0 MX.
have [r [st' [x' [y' [S1 [S2 [_ [S4 [S5 [S5' [S6 S7]]]]]]]]]]] := @C92_equality_partial part lu srt th sigma nonfinite lus meth failed check fuel o f1 f2 f3 oAx oAp obc w0 hist m P M st H c x y tol
  HC LC SC th0 LUS NR CF EO QQ PD IR BU U SS ST TOL t0 MX.
exists r, st', x', y'; do 3![split=> //] => fuel' f1' f2' f3' oAx' oAp' obc' w0' hist' m' M' U'.
have SS' : state_sized (p_dims P) st'.
  have [_ [D2 [D3 [D4 _]]]] := EO.
  by rewrite /state_sized; have [-> [-> [-> [_ [-> [-> [-> ->]]]]]]] := S4; rewrite !List.map_length /= D2 D3 D4.
have [r' [st'' [x'' [y'' [S1' [S2' [S3' [S4' [S8 [_ [S6' _]]]]]]]]]]] := @C92_equality_partial part lu srt th sigma nonfinite lus meth failed check fuel' o f1' f2' f3' oAx' oAp' obc' w0' hist' m' P M' st' H c x' y' tol
  HC LC SC th0 LUS NR CF EO QQ PD IR BU U' SS' S4 TOL t0 MX.
exists r', st'', y''; do 3![split=> //].
by rewrite -(S7 x'' S8 S6').
Qed.
Print Assumptions C98_quadratic_partial.

(** For example the problem of C92_equality_case, solved twice. *)
Example C98_quadratic_case : exists lu srt lus M r st' r' st'' x y y'',
  [/\ lu_correct lu /\ sort_correct srt, update_master mem7 mem7 mem7 old7 old7 old7 P92q = Some M,
      u_solve libstdcxx_partition (the_ech lu srt 0 0 M) (fun a _ => (a, XNaN)) (w_newton M lus 0 Nullspace (fun w => (w, fin nil nil nil))) None None 1
        (Options 5 (XF R1) false) mem7 mem7 mem7 old7 old7 old7 w83 nil m0 P92q st92q = Some (r, st') /\ starts_at st' x nil nil nil y nil nil nil,
      u_solve libstdcxx_partition (the_ech lu srt 0 0 M) (fun a _ => (a, XNaN)) (w_newton M lus 0 Nullspace (fun w => (w, fin nil nil nil))) None None 1
        (Options 5 (XF R1) false) mem7 mem7 mem7 old7 old7 old7 w83 nil m0 P92q st' = Some (r', st'') & r_succeeded r' = true /\ starts_at st'' x nil nil nil y'' nil nil nil].
Proof.
have [lu LC] := lu_correct_exists RF; have [srt SC] := sort_correct_exists RF; have [lus LUS] := lu_exists RF.
have [M U] : exists M, update_master mem7 mem7 mem7 old7 old7 old7 P92q = Some M by eexists; reflexivity.
have [CF [EO [QQ [PD [IR BU]]]]] := case92.
have [||||||r [st' [x [y [H1 [_ [H3 H4]]]]]]] := @C98_quadratic_partial libstdcxx_partition lu srt 0 0 (fun a _ => (a, XNaN)) lus Nullspace (fun w => (w, fin nil nil nil)) None 0%N
  (Options 5 (XF R1) false) mem7 mem7 mem7 old7 old7 old7 w83 nil m0 P92q M st92q H92q (fun _ => R0) (IZR 7 :: IZR 7 :: nil) (IZR 3 :: nil) R1 libstdcxx_contract LC SC (lexx _) LUS _ CF EO QQ PD IR BU U _ _ _ _ _ => //.
- by lra.
- by rewrite /=; lia.
have [r' [st'' [y'' [H5 [H6 [_ H7]]]]]] := H4 0%N mem7 mem7 mem7 old7 old7 old7 w83 nil m0 M U.
by exists lu, srt, lus, M, r, st', r', st'', x, y, y''.
Qed.
