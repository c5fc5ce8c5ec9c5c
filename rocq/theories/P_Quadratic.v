(** Property theorems C92: quadratic programs. *)
From Coq Require Import List PeanoNat Permutation Reals Lra Lia.
From mathcomp Require Import all_ssreflect all_fingroup all_algebra.
From Verif Require Import Num Num_facts Index_model Index_spec Index_proofs Num_rf R_rf Echelon_model Echelon_spec LU_model LU_spec Linear_model Linear_spec Canonical_model Canonical_spec.
From Verif Require Import ResErr_model Residual_model Residual_spec Residual_proofs P_Residual Accept_proofs EchelonO_model EchelonO_spec EchelonO_proofs EchelonOEx_proofs Stay_proofs.
From Verif Require Import Loop_model Loop_spec Loop_proofs P_Loop Wrapper_model Wrapper_spec Wrapper_proofs P_Wrapper End_model End_spec Near_proofs End_proofs.
From Verif Require Import Newton_model Newton_spec Newton_proofs Exact_spec Exact_proofs P_Newton P_End P_EchelonO Pivot_spec Pivot_proofs Indep_proofs Status_spec P_Status P_Licq Convex_spec Convex_proofs Cycle_proofs CycleEx_proofs Quadratic_spec Quadratic_proofs QuadRun_proofs QuadEx_proofs.
Set Implicit Arguments.
Unset Strict Implicit.
Unset Printing Implicit Defensive.
Import Order.TTheory GRing.Theory Num.Theory.
Local Open Scope ring_scope.
Local Notation "l ++ l'" := (List.app l l') : seq_scope.

Definition o92 : list R := R0 :: R0 :: R0 :: R0 :: nil.
Definition b92 : list R := R0 :: IZR 5 :: R0 :: R0 :: nil.

Lemma newton92 E part M ech nonfinite lus meth failed f1 f2 f3 oAx oAp obc (v : world E) x (y : R) (fx : nat) xn :
  update_master f1 f2 f3 oAx oAp obc P92 = Some M ->
  partition_contract part -> ech_contract M ech -> (forall a wt, qjb (ech a (m_Wx M x nil) (m_Wp M x nil) wt).2 = 3%N :: nil) ->
  (forall n (A : 'M[RF]_n), full_piv A (lus n A)) -> meth <> Rangespace ->
  (x = o92 /\ fx = 0%N /\ xn = R0 :: IZR 5 :: IZR (-3) :: R0 :: nil) \/ (x = b92 /\ fx = 2%N /\ xn = IZR (-4) :: R0 :: R0 :: R0 :: nil) ->
  let w1 := w_update part M ech nonfinite v (fin x nil (y :: nil)) in
  exists dx dw, (w_newton M lus 0 meth failed w1).2 = fin dx nil (dw :: nil) /\ length dx = 4%N /\
    (forall i, (i < 4)%coq_nat -> Rplus (List.nth i x R0) (List.nth i dx R0) = List.nth i xn R0).
Proof.
move=> U HC HE JQ LUS NR CS w1.
have EM : [/\ ms_nx M = 4%N, ms_np M = 0%N, ms_ny M = 1%N & ms_nz M = 0%N] by rewrite (Meq _ _ _ _ _ _ _ _ U).
have [E1 E2 E3 E4] := EM.
have W z p j : (j < 4)%N -> m_Wx M z p 0%N j = if Nat.eqb j 3 then 1 else 0.
  move=> j2; rewrite /m_Wx E3 /=.
  exact: (Ax92 _ _ _ _ _ _ _ _ U (ssrnat.ltP j2)).
have [q [r [[a [wt [WT Eq]]] HQ RU R1' _]]] := w_update_fin nonfinite v x nil (y :: nil) HC HE.
have JB : qjb q = 3%N :: nil by rewrite Eq; exact: JQ.
set ev := m_evals M _ nil in HQ RU; set u := MVec _ _ _ in RU.
have [_ _ _ JU] := @rf_ju _ _ _ _ _ _ (m_data M x) _ _ _ _ u HC HQ.
have RS : rst r = rf_stability part (ms_nx M) (ms_ny M) (ms_nz M) (m_data M x) ev (m_Wx M x nil) (qjb q) u.
  by move: RU; rewrite /rf_update; case: canonicalize => // c [<-].
have S4 (f : nat -> RF) : \sum_(j < 4) f j = f 0%N + (f 1%N + (f 2%N + f 3%N)) by rewrite !big_ord_recl big_ord0 addr0.
have S1 (f : nat -> RF) : \sum_(j < 1 + 0) f j = f 0%N by rewrite big_ord_recl big_ord0 addr0.
have LG j : (j < 4)%N -> lagrangian (ms_ny M) (ms_nz M) ev (m_Wx M x nil) u j = List.nth j (g92 x) R0 + (if Nat.eqb j 3 then y else 0).
  move=> jl; rewrite /lagrangian E3 E4 (S1 (fun l => m_Wx _ _ _ l j * _ l)) W // /ev /= /m_f (Meq _ _ _ _ _ _ _ _ U) /= /vec /=.
  by case: CS => -[-> _]; case: j jl => [|[|[|[|j]]]] //= _; rewrite ?mul1r ?mul0r.
have HX i j : (i < 4)%N -> (j < 4)%N -> eHxx ev i j = List.nth j (List.nth i H92 nil) R0.
  by rewrite /ev /= /m_f (Meq _ _ _ _ _ _ _ _ U); case: i => [|[|[|[|i]]]] // _; case: j => [|[|[|[|j]]]].
have FX : In fx (status_ju (rst r)).
  rewrite RS; apply: (rf_ju_all HC HQ).
  - by rewrite JB.
  - by rewrite E1; case: CS => -[_ [-> _]].
  - by rewrite JB; case: CS => -[_ [-> _]]; case.
  - left; rewrite LG; last by case: CS => -[_ [-> _]].
    rewrite /= (Meq _ _ _ _ _ _ _ _ U) /vec.
    by case: CS => -[-> [-> _]] /=; split=> //; apply/R_ltP; rewrite /g92 /o92 /b92 /at_ /= ?R_addE -?[0]/R0; lra.
have FR j : (j < 4)%N -> j <> fx -> ~ In j (status_ju (rst r)).
  move=> jl jf; rewrite RS => /JU; rewrite LG // /= (Meq _ _ _ _ _ _ _ _ U) /vec => H.
  move: H => [[H1 /R_ltP H2]|[H1 /R_ltP H2]]; move: H1 H2 jf; case: CS => -[-> [-> _]]; case: j jl => [|[|[|[|j]]]] //= _;
    rewrite /g92 /o92 /b92 /at_ /= ?R_addE -?[0]/R0 => H1 H2 jf; lra.
have LQ : length (qjb q) = (ms_ny M + ms_nz M)%N by rewrite JB E3 E4.
have FIX j : (j < 4)%N -> In j (status_ju (rst r)) -> j = fx.
  by move=> jl H; case: (PeanoNat.Nat.eq_dec j fx) => // N; case: (FR j jl N).
have EQS a0 c du : newton_eqs 4 0 (1 + 0) ev (m_Wx M x nil) (m_Wp M x nil) (fun j => In j (status_ju (rst r))) a0 (fun _ => 0) c du ->
  [/\ mx du fx = 0, forall i, (i < 4)%N -> i <> fx -> (List.nth 0 (List.nth i H92 nil) R0 : RF) * mx du 0%N + ((List.nth 1 (List.nth i H92 nil) R0 : RF) * mx du 1%N
     + ((List.nth 2 (List.nth i H92 nil) R0 : RF) * mx du 2%N + (List.nth 3 (List.nth i H92 nil) R0 : RF) * mx du 3%N)) + (if Nat.eqb i 3 then mw du 0%N else 0) = a0 i
   & mx du 3%N = c 0%N].
  move=> [N1 N2 _ N4]; split.
  + by apply: N1 => //; case: CS => -[_ [-> _]].
  + move=> i il fi; have := N2 i il (FR i il fi).
    rewrite (S4 (fun j => eHxx _ i j * mx du j)) big_ord0 (S1 (fun l => m_Wx _ _ _ l i * mw du l)) !HX // W // addr0 => <-.
    by case: Nat.eqb; rewrite ?mul1r ?mul0r.
  + have := N4 0%N isT; rewrite (S4 (fun j => m_Wx _ _ _ 0%N j * mx du j)) big_ord0 !W //= => <-.
    by rewrite !mul0r !add0r mul1r addr0.
have RG : regular (ms_nx M) (ms_np M) (ms_ny M + ms_nz M) ev (m_Wx M x nil) (m_Wp M x nil) (fun j => In j (status_ju (rst r))).
  move=> du; rewrite E1 E2 E3 E4 => /EQS [Q1 Q2 Q3].
  have [P0 P1 P2] : [/\ mx du 0%N = 0, mx du 1%N = 0 & mx du 2%N = 0].
    move: (Q2 0%N isT) (Q2 1%N isT) (Q2 2%N isT) Q1; rewrite Q3.
    case: CS => -[_ [-> _]] /= A B C D.
    + move: (B ltac:(by [])) (C ltac:(by [])) => {A B C}; rewrite D ?R_mulE ?R_addE -?[0]/R0 => B C; split; lra.
    + move: (A ltac:(by [])) (B ltac:(by [])) => {A B C}; rewrite D ?R_mulE ?R_addE -?[0]/R0 => A B; split; lra.
  have P3 : mw du 0%N = 0.
    have := Q2 3%N isT; rewrite /= P0 P1 P2 Q3 ?R_mulE ?R_addE -?[0]/R0 => H.
    have := H ltac:(by case: CS => -[_ [-> _]]); lra.
  by split=> [[|[|[|[|i]]]]|k|[|l]].
have NRS : newton_resolved lus 0 meth (ms_np M) r.
  by rewrite /newton_resolved; case: (meth) NR => // _ k k0; rewrite mul0r normr_gt0.
have CL i : (i < ms_ny M + ms_nz M)%N -> no_cancellation (ms_ny M) (ms_nz M) (kR (rc r)) (rv_awstar (ms_np M) (ms_ny M) (m_data M x) ev (rM r) (rc r) u) i.
  rewrite E3 E4; case: i => // _; right; rewrite /roundoff !big_ord_recl !big_ord0 !addr0 normrM.
  apply: ler_pimull; first by rewrite mulr_ge0.
  have G' (F : realFieldType) : (2 ^+ 52)^-1 <= 1 :> F by rewrite invf_le1 ?exprn_ege1 ?exprn_gt0 ?ler1n ?ltr0n.
  exact: G'.
have [du ED ND] := newton_ok LUS (lexx _) HC HQ RU LQ RG NRS (fun _ => 0).
have EN : w_newton M lus 0 meth failed w1 = (w1, UVec (List.map XF (vlist (ms_nx M) (mx du))) (List.map XF (vlist (ms_np M) (mp du))) (List.map XF (vlist (ms_ny M + ms_nz M) (mw du)))).
  by rewrite /w_newton R1' ED.
have LG' := LG; rewrite E3 E4 in LG'.
have ND' : newton_eqs (ms_nx M) (ms_np M) (ms_ny M + ms_nz M) ev (m_Wx M x nil) (m_Wp M x nil) (fun j => In j (status_ju (rst r)))
     (fun i => - lagrangian (ms_ny M) (ms_nz M) ev (m_Wx M x nil) u i) (fun k => 0)
     (constraint_left (ms_nx M) (ms_np M) (ms_ny M) (m_data M x) ev (m_Wx M x nil) (m_Wp M x nil) u) du.
  case: ND => N1 N2 N3 N4; split=> //; first by rewrite E2.
  by move=> l ll; rewrite N4 // (cleaned_exact HC HQ RU LQ CL) addr0.
move: ND'; rewrite E1 E2 E3 E4 => /EQS [Q1 Q2 Q3].
exists (vlist 4 (mx du)), (mw du 0%N).
rewrite EN E1 E2 E3 E4 length_vlist; do 2![split=> //].
have C0 : mx du 3%N = 0.
  rewrite Q3 /constraint_left big_ord0 (S4 (fun j => m_Wx _ _ _ 0%N j * _ j)) !W //= (Meq _ _ _ _ _ _ _ _ U) /= /vec.
  by case: CS => -[-> _] /=; rewrite ?R_mulE ?R_addE ?R_oppE -?[0]/R0; lra.
have [P0 [P1 P2]] : Rplus (List.nth 0 x R0) (mx du 0%N) = List.nth 0 xn R0 /\ Rplus (List.nth 1 x R0) (mx du 1%N) = List.nth 1 xn R0 /\ Rplus (List.nth 2 x R0) (mx du 2%N) = List.nth 2 xn R0.
  move: (Q2 0%N isT) (Q2 1%N isT) (Q2 2%N isT) Q1; rewrite C0 !LG' //.
  case: CS => -[-> [-> ->]] /= A B C D.
  + move: (B ltac:(by [])) (C ltac:(by [])) => {A B C}; rewrite D /o92 /at_ /= ?R_mulE ?R_addE ?R_oppE -?[0]/R0 => B C; do !split; lra.
  + move: (A ltac:(by [])) (B ltac:(by [])) => {A B C}; rewrite D /b92 /at_ /= ?R_mulE ?R_addE ?R_oppE -?[0]/R0 => A B; do !split; lra.
move=> i /ssrnat.ltP il; rewrite (nth_vlist _ il).
case: i il => [|[|[|[|i]]]] // _; rewrite C0.
by case: CS => -[-> [_ ->]] /=; rewrite -?[0]/R0; lra.
Qed.

(** ** C92.  Strictly convex quadratic programs with bounds.  The objective function of [P92] is strongly convex, its constraint is
    linear, the active constraints are independent at every point and (0, 2, 0, 0) is the only minimiser, on bounds
    with strictly positive derivatives.  From 0, with any multiplier, every calculation goes back and forth between 0 and (0, 5, 0, 0): it ends
    at one of these points without success after the largest number of iterations, however large that is. *)
Theorem C92_cycle_refuted : 
  conforming P92 /\ ordered_bounds P92 /\ convex_problem P92 (Rinv 4) nil /\
  (minimises P92 nil (R0 :: IZR 2 :: R0 :: R0 :: nil) /\ forall x, length x = 4%N -> minimises P92 nil x -> x = R0 :: IZR 2 :: R0 :: R0 :: nil) /\
  (forall a b c e, licq P92 (a :: b :: c :: e :: nil) nil nil nil) /\
  forall part lu srt th sigma nonfinite lus meth failed fuel o f1 f2 f3 oAx oAp obc w0 hist m M st y tol,
    partition_contract part -> lu_correct lu -> sort_correct srt -> Rle 0 th -> Rlt th 1 -> (forall n (A : 'M[RF]_n), full_piv A (lus n A)) -> meth <> Rangespace ->
    (forall w, sized 4 0 1 (failed w).2) -> block_unspoiled f1 oAx (p_dims P92) -> update_master f1 f2 f3 oAx oAp obc P92 = Some M ->
    state_sized (p_dims P92) st -> starts_at st o92 nil nil nil (y :: nil) nil nil nil ->
    o_tol o = XF tol -> Rle tol 1 -> (o_maxiters o < fuel)%coq_nat ->
    exists r st' x y', u_solve part (the_ech lu srt th sigma M) nonfinite (w_newton M lus 0 meth failed) None None fuel o f1 f2 f3 oAx oAp obc w0 hist m P92 st = Some (r, st') /\
      r_succeeded r = false /\ r_iterations r = S (o_maxiters o) /\ starts_at st' x nil nil nil (y' :: nil) nil nil nil /\ (x = o92 \/ x = b92).
Proof.
have CF : conforming P92 by repeat split.
have OB : ordered_bounds P92 by split=> //; split; repeat constructor.
split=> //; split=> //; split; first exact: convex92.
split; first exact: minimises92.
split; first exact: licq92.
move=> part lu srt th sigma nonfinite lus meth failed fuel o f1 f2 f3 oAx oAp obc w0 hist m M st y tol.
move=> HC LC SC th0' th1 LUS NR FS BU U SS ST TOL T1 FU.
have th0 : (0 : RF) <= th by apply/R_leP.
have EM : [/\ ms_nx M = 4%N, ms_np M = 0%N, ms_ny M = 1%N & ms_nz M = 0%N] by rewrite (Meq _ _ _ _ _ _ _ _ U).
have [E1 E2 E3 E4] := EM.
have HE : ech_contract M (the_ech lu srt th sigma M) by exact: C83_contract.
have W z p j : (j < 4)%N -> m_Wx M z p 0%N j = if Nat.eqb j 3 then 1 else 0.
  move=> j2; rewrite /m_Wx E3 /=.
  exact: (Ax92 _ _ _ _ _ _ _ _ U (ssrnat.ltP j2)).
have JQ h (x : list R) wt : length x = 4%N -> qjb (the_ech lu srt th sigma M h (m_Wx M x nil) (m_Wp M x nil) wt).2 = 3%N :: nil.
  move=> Lx; set q := (the_ech _ _ _ _ _ _ _ _ _).2.
  have IE : independent_equalities P92 x nil.
    by move: Lx; case: x q => [|a [|b [|c [|e [|]]]]] // _ _; apply: (licq_independent _ _ nil nil); exact: licq92.
  have LQ : length (qjb q) = 1%N.
    rewrite /q -[in m_Wx M x nil](List.app_nil_r x) -[in m_Wp M x nil](List.app_nil_r x).
    exact: (@the_ech_full lu srt th sigma _ _ _ _ _ _ P92 M x nil nil nil h wt LC SC th0 U BU Lx erefl erefl IE).
  have [PQ QE _ _] := HE h x nil wt nil.
  have := QE 0%N 0%N; rewrite -/q LQ E3 E4 => /(_ isT isT).
  have J4 : (ix (qjb q) 0 < 4)%N.
    have : In (ix (qjb q) 0) (indices (ms_nx M)).
      apply: (Permutation_in _ (Permutation_sym PQ)); apply/in_app_iff; left; rewrite -/q /ix; apply: nth_In; rewrite LQ; lia.
    by rewrite /indices E1 => /in_seq [_ /ssrnat.ltP].
  rewrite big_ord_recl big_ord0 /= W // addr0.
  case: Nat.eqb_spec => [J3 _|_ /eqP]; last by rewrite mulr0 eq_sym oner_eq0.
  by move: LQ J3; rewrite /ix; case: (qjb q) => [|j [|]] //= _ ->.
pose I (x p w : list R) := (x = o92 \/ x = b92) /\ p = nil /\ exists t, w = t :: nil.
have LB : [/\ xlo (m_bounds M) = lo92, xhi (m_bounds M) = hi92, plo (m_bounds M) = nil & phi_ (m_bounds M) = nil] by rewrite (Meq _ _ _ _ _ _ _ _ U).
have [B1 B2 B3 B4] := LB.
have IN x p w : I x p w -> [/\ length x = 4%N, all_inside lo92 hi92 x, p = nil & exists t, w = t :: nil].
  by move=> [[->|->] [-> H]]; split=> //; apply: all_inside92; lra.
have AP : all_inside nil nil nil by move=> i /= Hi; exfalso; lia.
have CL x p w : I x p w -> clampu (m_bounds M) (fin x p w) = fin x p w.
  move=> /IN [L H -> [t ->]]; apply: clampu_id; rewrite ?B1 ?B2 ?B3 ?B4 ?L //.
have NW x p w v : I x p w -> exists dx dp dy x' p' y',
  (w_newton M lus 0 meth failed (w_update part M (the_ech lu srt th sigma M) nonfinite v (fin x p w))).2 = fin dx dp dy /\ I x' p' y' /\
  backtrack (o_fix o) (m_bounds M) (fin x p w) (UVec (map2 nadd (List.map XF x) (List.map XF dx)) (map2 nadd (List.map XF p) (List.map XF dp)) (map2 nadd (List.map XF w) (List.map XF dy))) = fin x' p' y'.
  move=> HI; have [L AI Ep [t Et]] := IN _ _ _ HI; rewrite Ep Et in HI *.
  have [fx [xn [x' [HS [HB HI']]]]] : exists fx xn x', ((x = o92 /\ fx = 0%N /\ xn = R0 :: IZR 5 :: IZR (-3) :: R0 :: nil) \/ (x = b92 /\ fx = 2%N /\ xn = IZR (-4) :: R0 :: R0 :: R0 :: nil)) /\
    held_back lo92 hi92 x xn x' /\ (x' = o92 \/ x' = b92).
    case: HI => -[->|->] _.
    - exists 0%N, (R0 :: IZR 5 :: IZR (-3) :: R0 :: nil), b92; split; [by left | split; [exact: (proj1 held92) | by right]].
    - exists 2%N, (IZR (-4) :: R0 :: R0 :: R0 :: nil), o92; split; [by right | split; [exact: (proj2 held92) | by left]].
  have [dx [dw [D1 [D2 D3]]]] := newton92 nonfinite failed v t U HC HE (fun a wt => JQ a x wt L) LUS NR HS.
  exists dx, nil, (dw :: nil), x', nil, (Rplus t dw :: nil); split; first exact: D1.
  split; first by split=> //; split=> //; exists (Rplus t dw).
  have -> : map2 nadd (List.map XF x) (List.map XF dx) = List.map XF xn.
    have [X1 _] := HB; apply: add_step; rewrite ?D2 ?X1 ?L //.
  apply: (@backtrack_held (m_bounds M) (o_fix o) x xn x' nil nil nil (t :: nil) (Rplus t dw :: nil)); rewrite ?B1 ?B2 ?B3 ?B4 ?L //.
  by split=> //; split=> // i /= Hi; exfalso; lia.
have I0 : I o92 nil (y :: nil) by split; [left | split=> //; exists y].
have [r [s [S [[r1 r2] _]]]] := C48_terminates_partial _ _ _ (w_update part M (the_ech lu srt th sigma M) nonfinite) (fun w _ => w_err w) (w_newton M lus 0 meth failed) None None (m_bounds M) o fuel w0 hist (fin o92 nil (y :: nil)) FU.
have [x' [p' [y' [Us HI]]]] := solve_trapped _ _ _ _ _ _ _ CL NW _ _ _ _ _ _ _ _ I0 S.
have [L AI Ep [t Et]] := IN _ _ _ HI; rewrite Ep Et in HI Us.

have [st' [S' H]] := @lift_run part _ (the_ech lu srt th sigma M) nonfinite (w_newton M lus 0 meth failed) None None fuel o f1 f2 f3 oAx oAp obc w0 hist m P92 M st
  o92 nil nil nil (y :: nil) nil nil nil x' nil nil nil (t :: nil) nil nil nil r s U ST L erefl erefl erefl erefl erefl erefl S ltac:(by rewrite Us ?List.app_nil_r ?cats0).
exists r, st', x', t; split; first exact: S'.
have NS : r_succeeded r = false.
  case OK: (r_succeeded r) => //; exfalso.
  have NZ w : sized (nxbar (p_dims P92)) (d_p (p_dims P92)) (ny (p_dims P92) + nz (p_dims P92)) (w_newton M lus 0 meth failed w).2.
    rewrite /w_newton; case: (w_res w) => [rr|]; last exact: FS.
    case: (newton_dir _ _ _ _ _ _) => [du|]; last exact: FS.
    rewrite /sized; cbn [ux up uw]; rewrite !List.map_length !List.seq_length E1 E2 E3 E4; by [].
  have LI : licq P92 x' nil nil nil by case: HI => -[->|->] _; exact: licq92.
  have WP : well_pivoted th M (x' ++ nil ++ nil) nil.
    apply: well_pivoted_row => //; first by rewrite E3 E4.
    move=> j; rewrite E1 => /ssrnat.ltP jl; rewrite W //; case: Nat.eqb; [right; exact: Rabs_R1 | by left].
  have [UN _] := @C85_success_partial part lu srt th sigma nonfinite (w_newton M lus 0 meth failed) None fuel o f1 f2 f3 oAx oAp obc w0 hist m P92 M st r st' tol
     x' nil nil nil (t :: nil) nil nil nil HC LC SC th0 CF OB BU U SS ltac:(by case: ST => _ [_ [_ [-> _]]]) NZ ltac:(by []) TOL S' OK H LI WP.
  have [N1 N2] := not_near92 tol t T1.
  by case: HI UN => -[->|->] _.
split=> //; split; last by split=> //; case: HI.
move: S NS r2; rewrite /solve; case: (loop _ _ _ _ _ _ _ _ _ _) => [s1|//] [<- _] /=.
by move/Nat.leb_gt; lia.
Qed.
Print Assumptions C92_cycle_refuted.

(** For example at most 100 iterations: the calculation ends after 101 of them without success. *)
Definition st92 : ustate xreal := UState (p_dims P92) (List.map XF o92) nil (XF R0 :: nil) nil nil nil nil nil nil nil nil nil nil nil nil.
Example C92_cycle_case : exists lu srt lus M r st' x y',
  [/\ lu_correct lu /\ sort_correct srt, update_master mem7 mem7 mem7 old7 old7 old7 P92 = Some M,
      u_solve libstdcxx_partition (the_ech lu srt 0 0 M) (fun a _ => (a, XNaN)) (w_newton M lus 0 Nullspace (fun w => (w, fin o92 nil (R0 :: nil)))) None None 101
        (Options 100 (XF R1) false) mem7 mem7 mem7 old7 old7 old7 w83 nil m0 P92 st92 = Some (r, st'),
      r_succeeded r = false /\ r_iterations r = 101%N & starts_at st' x nil nil nil (y' :: nil) nil nil nil /\ (x = o92 \/ x = b92)].
Proof.
have [lu LC] := lu_correct_exists RF; have [srt SC] := sort_correct_exists RF; have [lus LUS] := lu_exists RF.
have [_ [_ [_ [_ [_ H]]]]] := C92_cycle_refuted.
have [M U] : exists M, update_master mem7 mem7 mem7 old7 old7 old7 P92 = Some M by eexists; reflexivity.
have [|||||||||||||||r [st' [x [y' [H1 [H2 [H3 [H4 H5]]]]]]]] := H libstdcxx_partition lu srt R0 0 (fun a _ => (a, XNaN)) lus Nullspace (fun w => (w, fin o92 nil (R0 :: nil))) 101%N
  (Options 100 (XF R1) false) mem7 mem7 mem7 old7 old7 old7 w83 nil m0 M st92 R0 R1 => //.
all: try by [rewrite /=; lra | rewrite /=; lia].
- exact: libstdcxx_contract.
- by right; left.
by exists lu, srt, lus, M, r, st', x, y'.
Qed.

(** ** C92 for equality-constrained quadratic programs.  From every initial point and with all multipliers one iteration
    leads to the only minimiser and is reported as success, for every threshold of the echelonizer and every positive
    tolerance.  Exact arithmetic; the threshold of the LU solver is zero (eps = 0). *)
Theorem C92_equality_partial : forall part lu srt th sigma nonfinite lus meth failed check fuel o f1 f2 f3 oAx oAp obc w0 hist m P M st H c x y tol,
  partition_contract part -> lu_correct lu -> sort_correct srt -> 0 <= th -> (forall n (A : 'M[RF]_n), full_piv A (lus n A)) -> meth <> Rangespace ->
  conforming P -> equalities_only P -> quadratic P H c -> positive_along P H -> independent_rows P -> basic_uncancelled P ->
  update_master f1 f2 f3 oAx oAp obc P = Some M -> state_sized (p_dims P) st -> starts_at st x nil nil nil y nil nil nil ->
  o_tol o = XF tol -> Rlt R0 tol -> (1 <= o_maxiters o)%coq_nat ->
  exists r st' x' y', u_solve part (the_ech lu srt th sigma M) nonfinite (w_newton M lus 0 meth failed) None check (S fuel) o f1 f2 f3 oAx oAp obc w0 hist m P st = Some (r, st') /\
    r_succeeded r = true /\ r_iterations r = 1%N /\ starts_at st' x' nil nil nil y' nil nil nil /\ length x' = d_x (p_dims P) /\ length y' = d_be (p_dims P) /\
    minimises P nil x' /\ forall z, length z = d_x (p_dims P) -> minimises P nil z -> z = x'.
Proof.
move=> part lu srt th sigma nonfinite lus meth failed check fuel o f1 f2 f3 oAx oAp obc w0 hist m P M st H c x y tol.
move=> HC LC SC th0 LUS NR CF EO QQ PD IR BU U SS ST TOL t0 MX.
have IE z : independent_equalities P z nil.
  move=> a b AB; have [_ [_ [E3 _]]] := EO; split; last by rewrite E3 => i Hi; exfalso; lia.
  by apply: IR => j jn; have := AB j jn; rewrite E3 /= Rplus_0_r.
have [E1 E2 E3 E4] := dims92 U EO.
have [D1 [D2 [D3 [D4 [BD [PL PU]]]]]] := EO.
have BUn : block_unspoiled f1 oAx (p_dims P) by right; left.
have HE : ech_contract M (the_ech lu srt th sigma M) by exact: C83_contract.
have [Lx Ly] : length x = d_x (p_dims P) /\ length y = d_be (p_dims P).
  have [A1 [A2 _]] := SS; have [S1 [_ [_ [_ [S2 _]]]]] := ST.
  by rewrite S1 List.map_length in A1; rewrite S2 List.map_length in A2.
have LQ a (z : list R) wt : length z = d_x (p_dims P) -> length (qjb (the_ech lu srt th sigma M a (m_Wx M z nil) (m_Wp M z nil) wt).2) = (ms_ny M + ms_nz M)%N.
  move=> Lz; rewrite -[in m_Wx M z nil](List.app_nil_r z) -[in m_Wp M z nil](List.app_nil_r z).
  by rewrite (@the_ech_full lu srt th sigma _ _ _ _ _ _ P M z nil nil nil a wt LC SC th0 U BUn Lz (esym D2) (esym D4) (IE z)) E3 E4 D2 D3 D4 addn0 !Nat.add_0_r.
(* the Newton step from any state of the echelonizer *)
have ST1 v : exists du, [/\ (w_newton M lus 0 meth failed (w_update part M (the_ech lu srt th sigma M) nonfinite v (fin x nil y))).2
      = fin (vlist (ms_nx M) (mx du)) nil (vlist (ms_ny M + ms_nz M) (mw du)),
    (forall i, (i < d_x (p_dims P))%coq_nat -> Rplus (Wrapper_spec.sum (d_x (p_dims P)) (fun j => Rmult (H i j) (mx du j))) (Wrapper_spec.sum (d_be (p_dims P)) (fun l => Rmult (p_Aex P l i) (mw du l)))
       = - lagrangian (ms_ny M) (ms_nz M) (m_evals M x nil) (m_Wx M x nil) (MVec (vec x : rawvec RF) (vec nil : rawvec RF) (vec y : rawvec RF)) i) &
    (forall l, (l < d_be (p_dims P))%coq_nat -> Wrapper_spec.sum (d_x (p_dims P)) (fun j => Rmult (p_Aex P l j) (mx du j))
       = constraint_left (ms_nx M) (ms_np M) (ms_ny M) (m_data M x) (m_evals M x nil) (m_Wx M x nil) (m_Wp M x nil) (MVec (vec x) (vec nil) (vec y)) l) /\
    forall a b cc du', newton_eqs (ms_nx M) (ms_np M) (ms_ny M + ms_nz M) (m_evals M x nil) (m_Wx M x nil) (m_Wp M x nil) (fun _ => False) a b cc du' ->
        newton_eqs (ms_nx M) (ms_np M) (ms_ny M + ms_nz M) (m_evals M x nil) (m_Wx M x nil) (m_Wp M x nil) (fun _ => False) a b cc du ->
        (forall i, (i < ms_nx M)%N -> mx du i = mx du' i) /\ (forall l, (l < ms_ny M + ms_nz M)%N -> mw du l = mw du' l)].
  have [q [r [W0 HQ RU R1' _]]] := w_update_fin nonfinite v x nil y HC HE.
  have [a0 [wt0 [WT Eq]]] := W0.
  have LQ' : length (qjb q) = (ms_ny M + ms_nz M)%N by rewrite Eq; exact: LQ.
  have NU := none_unstable CF U EO HC HQ RU.
  have RG := regular92 CF U QQ EO PD IE Lx HC HQ RU.
  have CL := nocancel92 CF U EO BU HC HQ RU LQ'.
  have NRS : newton_resolved lus 0 meth (ms_np M) r.
    by rewrite /newton_resolved; case: (meth) NR => // _ k k0; rewrite mul0r normr_gt0.
  have [du ED [N1 N2 N3 N4]] := newton_ok LUS (lexx _) HC HQ RU LQ' RG NRS (fun _ => 0).
  exists du.
  have /(eqs92 U QQ EO Lx _ _ _ _ NU) [Q1 Q2] : newton_eqs (ms_nx M) (ms_np M) (ms_ny M + ms_nz M) (m_evals M x nil) (m_Wx M x nil) (m_Wp M x nil) (fun j => In j (status_ju (rst r)))
     (fun i => - lagrangian (ms_ny M) (ms_nz M) (m_evals M x nil) (m_Wx M x nil) (MVec (vec x : rawvec RF) (vec nil : rawvec RF) (vec y : rawvec RF)) i) (fun k => - ev (m_evals M x nil) k)
     (constraint_left (ms_nx M) (ms_np M) (ms_ny M) (m_data M x) (m_evals M x nil) (m_Wx M x nil) (m_Wp M x nil) (MVec (vec x) (vec nil) (vec y))) du.
    by split=> // l ll; rewrite N4 // (cleaned_exact HC HQ RU LQ' CL) addr0.
  split=> //; first by rewrite /w_newton R1' ED E2.
  split=> // a' b' cc du' G1 G2.
  have EV e1 : newton_eqs (ms_nx M) (ms_np M) (ms_ny M + ms_nz M) (m_evals M x nil) (m_Wx M x nil) (m_Wp M x nil) (fun _ => False) a' b' cc e1 ->
     newton_eqs (ms_nx M) (ms_np M) (ms_ny M + ms_nz M) (m_evals M x nil) (m_Wx M x nil) (m_Wp M x nil) (fun j => In j (status_ju (rst r))) a' b' cc e1.
    by move/(eqs92 U QQ EO Lx _ _ _ _ (fun _ _ => id)) => G; apply/(eqs92 U QQ EO Lx _ _ _ _ NU).
  by have [U1 _ U2] := newton_unique RG (EV _ G2) (EV _ G1).
have [du0 [_ Q1 [Q2 _]]] := ST1 w0.
pose x' := List.map (fun i => Rplus (at_ x i) (mx du0 i)) (List.seq 0 (d_x (p_dims P))).
pose y' := List.map (fun i => Rplus (at_ y i) (mw du0 i)) (List.seq 0 (d_be (p_dims P))).
have Lx' : length x' = d_x (p_dims P) by rewrite List.map_length List.seq_length.
have Ly' : length y' = d_be (p_dims P) by rewrite List.map_length List.seq_length.
have NM f k i : (i < k)%coq_nat -> List.nth i (List.map f (List.seq 0 k)) R0 = f i.
  move=> ik; rewrite (nth_indep _ R0 (f 0%N)); last by rewrite List.map_length List.seq_length.
  by rewrite List.map_nth seq_nth.
have AX' i : (i < d_x (p_dims P))%coq_nat -> at_ x' i = Rplus (at_ x i) (mx du0 i) by exact: NM.
have AY' i : (i < d_be (p_dims P))%coq_nat -> at_ y' i = Rplus (at_ y i) (mw du0 i) by exact: NM.
have LAG z w i : length z = d_x (p_dims P) -> (i < d_x (p_dims P))%coq_nat -> lagrangian (ms_ny M) (ms_nz M) (m_evals M z nil) (m_Wx M z nil) (MVec (vec z : rawvec RF) (vec nil : rawvec RF) (vec w : rawvec RF)) i
   = Rplus (Rplus (Wrapper_spec.sum (d_x (p_dims P)) (fun k => Rmult (H i k) (at_ z k))) (c i)) (Wrapper_spec.sum (d_be (p_dims P)) (fun l => Rmult (p_Aex P l i) (at_ w l))).
  move=> Lz il; rewrite /lagrangian E3 E4 addn0 (g92' U QQ Lz (introT ssrnat.ltP il)) R_addE; congr (Rplus _ _).
  by apply: (sum_coq (f := fun l => m_Wx M z nil l i * vec w l)) => l lm; rewrite (W92 U EO) //; apply/ssrnat.ltP.
have CLF z w l : (l < d_be (p_dims P))%coq_nat -> constraint_left (ms_nx M) (ms_np M) (ms_ny M) (m_data M z) (m_evals M z nil) (m_Wx M z nil) (m_Wp M z nil) (MVec (vec z : rawvec RF) (vec nil : rawvec RF) (vec w : rawvec RF)) l
   = Rminus (at_ (p_be P) l) (Wrapper_spec.sum (d_x (p_dims P)) (fun j => Rmult (p_Aex P l j) (at_ z j))).
  move=> lm; rewrite /constraint_left E3 E2 E1 (introT ssrnat.ltP lm) big_ord0 subr0.
  rewrite (sum_coq (f := fun j => m_Wx M z nil l j * vec z j) (g := fun j => Rmult (p_Aex P l j) (at_ z j))); last by move=> j jn; rewrite (W92 U EO) //; apply/ssrnat.ltP.
  rewrite R_addE R_oppE; congr (Rplus _ _); rewrite /= /vec (Meq _ _ _ _ _ _ _ _ U) /=.
  by have [C1 _] := CF; rewrite app_nth1 // C1.
have S' j : (j < d_x (p_dims P))%coq_nat ->
   Rplus (Rplus (Wrapper_spec.sum (d_x (p_dims P)) (fun k => Rmult (H j k) (at_ x' k))) (c j)) (Wrapper_spec.sum (d_be (p_dims P)) (fun i => Rmult (p_Aex P i j) (at_ y' i))) = R0.
  move=> jn; have := Q1 j jn; rewrite (LAG x y j Lx jn) R_oppE.
  have -> : Wrapper_spec.sum (d_x (p_dims P)) (fun k => Rmult (H j k) (at_ x' k)) = Rplus (Wrapper_spec.sum (d_x (p_dims P)) (fun k => Rmult (H j k) (at_ x k))) (Wrapper_spec.sum (d_x (p_dims P)) (fun k => Rmult (H j k) (mx du0 k))).
    by rewrite -Convex_proofs.sum_plus; apply: sum_ext => k kn; rewrite AX' //; ring.
  have -> : Wrapper_spec.sum (d_be (p_dims P)) (fun i => Rmult (p_Aex P i j) (at_ y' i)) = Rplus (Wrapper_spec.sum (d_be (p_dims P)) (fun i => Rmult (p_Aex P i j) (at_ y i))) (Wrapper_spec.sum (d_be (p_dims P)) (fun i => Rmult (p_Aex P i j) (mw du0 i))).
    by rewrite -Convex_proofs.sum_plus; apply: sum_ext => k kn; rewrite AY' //; ring.
  by lra.
have F' i : (i < d_be (p_dims P))%coq_nat -> Wrapper_spec.sum (d_x (p_dims P)) (fun j => Rmult (p_Aex P i j) (at_ x' j)) = at_ (p_be P) i.
  move=> im; have := Q2 i im; rewrite (CLF x y i im).
  have -> : Wrapper_spec.sum (d_x (p_dims P)) (fun j => Rmult (p_Aex P i j) (at_ x' j)) = Rplus (Wrapper_spec.sum (d_x (p_dims P)) (fun j => Rmult (p_Aex P i j) (at_ x j))) (Wrapper_spec.sum (d_x (p_dims P)) (fun j => Rmult (p_Aex P i j) (mx du0 j))).
    by rewrite -Convex_proofs.sum_plus; apply: sum_ext => k kn; rewrite AX' //; ring.
  by lra.
have MIN := only_minimum P H c QQ EO PD x' y' Lx' F' S'.
have OB : ordered_bounds P.
  have [_ [_ [C3 C4]]] := CF; split; first by rewrite D1 PL.
  split; last by rewrite PL PU.
  rewrite (all_repeat C3 (fun i Hi => proj1 (BD i Hi))) (all_repeat C4 (fun i Hi => proj2 (BD i Hi))).
  by elim: (d_x (p_dims P)) => [|k IH]; constructor.
have [G1 [G2 [G3 G4]]] := good_bounds_of CF OB U.
have WI z : length z = d_x (p_dims P) -> all_inside (xlo (m_bounds M)) (xhi (m_bounds M)) z.
  move=> Lz i; rewrite Lz => il; have [B1 B2] := bd_x _ _ _ _ _ _ _ _ CF U i il; have [B3 B4] := BD i il.
  by rewrite B3 /bd in B1; rewrite B4 /bd in B2; rewrite /inside B1 B2.
have PB : plo (m_bounds M) = nil /\ phi_ (m_bounds M) = nil by rewrite (Meq _ _ _ _ _ _ _ _ U) /= PL PU.
have [PB1 PB2] := PB.
have AP : all_inside nil nil nil by move=> i /= Hi; exfalso; lia.
have [|||||||||||||s [S [Us _]]] := @solve_one_step _ (w_update part M (the_ech lu srt th sigma M) nonfinite) (fun w _ => w_err w) (w_newton M lus 0 meth failed) check (m_bounds M) o
   x nil y x' nil y' _ _ _ _ _ _ _ _ _ _ _ _ _ MX fuel w0 hist; rewrite ?PB1 ?PB2 ?Lx ?Lx' ?Ly ?Ly' //.
- by rewrite G1 E1.
- by rewrite -(Forall2_len _ _ _ G3) G1 E1.
- exact: WI.
- exact: WI.
- move=> v; have [du [D Q1v [Q2v UQ]]] := ST1 v.
  pose aa := fun i => - lagrangian (ms_ny M) (ms_nz M) (m_evals M x nil) (m_Wx M x nil) (MVec (vec x : rawvec RF) (vec nil : rawvec RF) (vec y : rawvec RF)) i.
  pose cc := constraint_left (ms_nx M) (ms_np M) (ms_ny M) (m_data M x) (m_evals M x nil) (m_Wx M x nil) (m_Wp M x nil) (MVec (vec x) (vec nil) (vec y)).
  have [U1 U2] := UQ aa (fun _ => 0) cc du0 (proj2 (eqs92 U QQ EO Lx aa _ cc du0 (fun _ _ => id)) (conj Q1 Q2)) (proj2 (eqs92 U QQ EO Lx aa _ cc du (fun _ _ => id)) (conj Q1v Q2v)).
  exists (vlist (ms_nx M) (mx du)), nil, (vlist (ms_ny M + ms_nz M) (mw du)); split; first exact: D.
  rewrite !length_vlist; split; first by rewrite E1.
  split=> //; split; first by rewrite E3 E4 addn0.
  split; last split.
  + move=> i il; have il' : (i < ms_nx M)%N by rewrite E1; apply/ssrnat.ltP.
    by rewrite (nth_vlist _ il') U1 // -[List.nth i x' R0]/(at_ x' i) AX'.
  + by move=> i /= Hi; exfalso; lia.
  + move=> i il; have il' : (i < ms_ny M + ms_nz M)%N by rewrite E3 E4 addn0; apply/ssrnat.ltP.
    by rewrite (nth_vlist _ il') U2 // -[List.nth i y' R0]/(at_ y' i) AY'.
- move=> v0; set v := (w_newton _ _ _ _ _ _).1.
  have [q [r [[a0 [wt0 [WT Eq]]] HQ RU R1' ->]]] := w_update_fin nonfinite v x' nil y' HC HE.
  have LQ' : length (qjb q) = (ms_ny M + ms_nz M)%N by rewrite Eq; exact: LQ.
  have CL := nocancel92 CF U EO BU HC HQ RU LQ'.
  have t0' : 0 < (tol : RF) by apply/R_ltP.
  suff /R_ltP : rerror r < (tol : RF) by rewrite TOL /= /rltb; case: Rlt_dec.
  apply: (exact_error HC HQ RU t0').
  + by rewrite E1 => i /ssrnat.ltP il; rewrite LAG //; exact: S'.
  + by rewrite E2.
  + rewrite E3 E4 addn0 => l /ssrnat.ltP lm; have := CLF x' y' l lm; rewrite F' // => E.
    by move: E; rewrite /Rminus Rplus_opp_r E3.
  + by rewrite LQ'.
have ST' : starts_at st x nil nil nil y nil nil nil by [].
have [st' [S2 S3]] := @lift_run part _ (the_ech lu srt th sigma M) nonfinite (w_newton M lus 0 meth failed) None check fuel.+1 o f1 f2 f3 oAx oAp obc w0 hist m P M st
  x nil nil nil y nil nil nil x' nil nil nil y' nil nil nil _ s U ST' Lx' (esym D2) (esym D4) Ly' (esym D2) (esym D3) (esym D4)
  ltac:(by rewrite ?List.app_nil_r ?cats0; exact: S) ltac:(by rewrite Us ?List.app_nil_r ?cats0).
by eexists; exists st', x', y'; split; [exact: S2 | do 5![split=> //]].
Qed.
Print Assumptions C92_equality_partial.

(** For example min x0 x1 (an indefinite matrix) subject to x0 - x1 = 2 from (7, 7). *)
Definition st92q : ustate xreal := UState (p_dims P92q) (XF (IZR 7) :: XF (IZR 7) :: nil) nil (XF (IZR 3) :: nil) nil nil nil nil nil nil nil nil nil nil nil nil.
Example C92_equality_case : exists lu srt lus M r st' x y,
  [/\ lu_correct lu /\ sort_correct srt, update_master mem7 mem7 mem7 old7 old7 old7 P92q = Some M,
      u_solve libstdcxx_partition (the_ech lu srt 0 0 M) (fun a _ => (a, XNaN)) (w_newton M lus 0 Nullspace (fun w => (w, fin nil nil nil))) None None 1
        (Options 5 (XF R1) false) mem7 mem7 mem7 old7 old7 old7 w83 nil m0 P92q st92q = Some (r, st'),
      r_succeeded r = true /\ r_iterations r = 1%N & starts_at st' x nil nil nil y nil nil nil /\ minimises P92q nil x].
Proof.
have [lu LC] := lu_correct_exists RF; have [srt SC] := sort_correct_exists RF; have [lus LUS] := lu_exists RF.
have [M U] : exists M, update_master mem7 mem7 mem7 old7 old7 old7 P92q = Some M by eexists; reflexivity.
have [CF [EO [QQ [PD [IR BU]]]]] := case92.
have [||||||r [st' [x [y [H1 [H2 [H3 [H4 [_ [_ [H5 _]]]]]]]]]]] := @C92_equality_partial libstdcxx_partition lu srt 0 0 (fun a _ => (a, XNaN)) lus Nullspace (fun w => (w, fin nil nil nil)) None 0%N
  (Options 5 (XF R1) false) mem7 mem7 mem7 old7 old7 old7 w83 nil m0 P92q M st92q H92q (fun _ => R0) (IZR 7 :: IZR 7 :: nil) (IZR 3 :: nil) R1 libstdcxx_contract LC SC (lexx _) LUS _ CF EO QQ PD IR BU U _ _ _ _ _ => //.
- by lra.
- by rewrite /=; lia.
by exists lu, srt, lus, M, r, st', x, y.
Qed.
