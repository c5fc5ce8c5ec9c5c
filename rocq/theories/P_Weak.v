(** Property theorem C85 (continued): constraints that depend on a variable too weakly for the echelonizer. *)
From Coq Require Import List PeanoNat Permutation Reals Lra Lia.
From mathcomp Require Import all_ssreflect all_fingroup all_algebra.
From Verif Require Import Num Num_facts Index_model Index_spec Index_proofs Num_rf R_rf Echelon_model Echelon_spec LU_model LU_spec Linear_model Linear_spec Canonical_model Canonical_spec.
From Verif Require Import ResErr_model Residual_model Residual_spec Residual_proofs P_Residual Accept_proofs EchelonO_model EchelonO_spec EchelonO_proofs EchelonOEx_proofs Stay_proofs.
From Verif Require Import Loop_model Loop_spec Loop_proofs P_Loop Wrapper_model Wrapper_spec Wrapper_proofs P_Wrapper End_model End_spec Near_proofs End_proofs.
From Verif Require Import Newton_model Newton_spec Newton_proofs Exact_spec Exact_proofs P_Newton P_End P_EchelonO Pivot_spec Pivot_proofs Indep_proofs Status_spec P_Status P_Licq Convex_spec Convex_proofs ConvexEx_proofs Weak_proofs WeakEx_proofs.
Set Implicit Arguments.
Unset Strict Implicit.
Unset Printing Implicit Defensive.
Import Order.TTheory GRing.Theory Num.Theory.
Local Open Scope ring_scope.
Local Notation "l ++ l'" := (List.app l l') : seq_scope.

(** [w_update_fin] with the state of the echelonizer *)
Lemma w_update_state part M E ech nonfinite w0 x p y :
  partition_contract part -> ech_contract M ech ->
  let a := ech (w_e w0) (m_Wx M x p) (m_Wp M x p) (rf_weight (m_data M x) (vec x)) in
  let w := @w_update part M E ech nonfinite w0 (UVec (List.map XF x) (List.map XF p) (List.map XF y)) in
  exists r, [/\ echelon_of (ms_nx M) (ms_np M) (ms_ny M + ms_nz M) (m_evals M x p) (m_Wx M x p) (m_Wp M x p) a.2,
    rf_update part (ms_nx M) (ms_np M) (ms_ny M) (ms_nz M) (m_data M x) (m_evals M x p) (m_Wx M x p) (m_Wp M x p) a.2 (MVec (vec x) (vec p) (vec y)) = Some r,
    w_res w = Some r, w_err w = XF (rerror r) & w_e w = a.1].
Proof.
move=> HC HE; rewrite /w_update /ux /up /uw !finite_map.
have := HE (w_e w0) x p (rf_weight (m_data M x) (vec x)).
case EQ: (ech _ _ _ _) => [a q] /= HQ.
have [r [Er _]] := C68_update_total (m_data M x) (MVec (vec x) (vec p) (vec y)) HC HQ.
by exists r; rewrite Er.
Qed.

(** From every point (1, b), |b| < 1, one iteration leads to (2, 0) with the multiplier 0, reported as success. *)
Lemma run85w part lu srt th sigma nonfinite lus meth failed check fuel o f1 f2 f3 oAx oAp obc w0 hist m a e M st b y tol :
  partition_contract part -> lu_correct lu -> sort_correct srt -> Rlt 0 e -> Rle e th -> Rlt th 1 -> Rlt 0 a ->
  (forall n (A : 'M[RF]_n), full_piv A (lus n A)) -> meth <> Rangespace ->
  update_master f1 f2 f3 oAx oAp obc (P85w a e) = Some M ->
  Rlt (Rabs b) 1 -> state_sized (p_dims (P85w a e)) st -> starts_at st (R1 :: b :: nil) nil nil nil (y :: nil) nil nil nil ->
  o_tol o = XF tol -> Rlt (Rmult 4 (Rinv (pow 2 52))) tol -> (1 <= o_maxiters o)%coq_nat ->
  exists r st', u_solve part (the_ech lu srt th sigma M) nonfinite (w_newton M lus 0 meth failed) None check (S fuel) o f1 f2 f3 oAx oAp obc w0 hist m (P85w a e) st = Some (r, st') /\
    r_succeeded r = true /\ r_iterations r = 1%N /\ starts_at st' (IZR 2 :: R0 :: nil) nil nil nil (R0 :: nil) nil nil nil.
Proof.
move=> HC LC SC e0 eth th1 a0 LUS NR U b1 SS ST TOL T4 MX.
have EM : [/\ ms_nx M = 2%N, ms_np M = 0%N, ms_ny M = 1%N & ms_nz M = 0%N] by rewrite (Meq _ _ _ _ _ _ _ _ U).
have [E1 E2 E3 E4] := EM.
have th0 : (0 : RF) <= th by apply/R_leP; exact: Rle_trans (Rlt_le _ _ e0) eth.
have HE : ech_contract M (the_ech lu srt th sigma M) by exact: C83_contract.
pose e' : RF := e.
have e0' : 0 < e' by apply/R_ltP.
have eth' : e' <= th by apply/R_leP.
have th1' : (th : RF) < 1 by apply/R_ltP.
have A0 : (mget (ms_Ax M) 0 0 : RF) = 1 by rewrite (Ax85w _ _ _ _ _ _ _ _ _ _ U); [|lia].
have A1 : (mget (ms_Ax M) 0 1 : RF) = e by rewrite (Ax85w _ _ _ _ _ _ _ _ _ _ U); [|lia].
have GV (h : list (rawmx RF * rawvec RF)) Wx Wp w := @good_view RF lu srt th sigma e' LC SC e0' eth' th1' (fun i j => mget (ms_Ax M) i j) A0 A1 0%N h Wx Wp w.
pose good h := @good RF lu srt th (fun i j => mget (ms_Ax M) i j) h.
have {}GV h Wx Wp w : good h \/ Rlt (w 1%N) (w 0%N) -> good (the_ech lu srt th sigma M h Wx Wp w).1 /\ qjb (the_ech lu srt th sigma M h Wx Wp w).2 = 0%N :: nil.
  move=> H; have H' : good h \/ (w 1%N : RF) < w 0%N by case: H => H; [left | right; apply/R_ltP].
  by move: (GV h Wx Wp w H'); rewrite /the_ech E1 E2 E3 E4.
have W x p j : (j < 2)%N -> m_Wx M x p 0%N j = if Nat.eqb j 0 then 1 else e.
  move=> j2; rewrite /m_Wx E3 /=.
  exact: (Ax85w _ _ _ _ _ _ _ _ _ _ U (ssrnat.ltP j2)).
have CF : conforming (P85w a e) by repeat split.
have OB : ordered_bounds (P85w a e) by split=> //; split; repeat constructor.
have G := good_bounds_of CF OB U; have [G1 [G2 [G3 G4]]] := G.
set x := R1 :: b :: nil; set x' := IZR 2 :: R0 :: nil.
have t0 : Rlt R0 tol.
  by apply: Rlt_trans T4; apply: Rmult_lt_0_compat; [lra | apply: Rinv_0_lt_compat; apply: pow_lt; lra].
have S2 (f : nat -> RF) : \sum_(j < 2) f j = f 0%N + f 1%N by rewrite !big_ord_recl big_ord0 addr0.
have S1 (f : nat -> RF) : \sum_(j < 1 + 0) f j = f 0%N by rewrite big_ord_recl big_ord0 addr0.
have RQ h (z : list R) wt : let q := (the_ech lu srt th sigma M h (m_Wx M z nil) (m_Wp M z nil) wt).2 in qjb q = 0%N :: nil -> qR q 0%N 0%N = R1.
  move=> q JB; have [_ QE _ _] := HE h z nil wt nil.
  by have := QE 0%N 0%N; rewrite -/q JB E3 E4 => /(_ isT isT); rewrite big_ord_recl big_ord0 /= W // mulr1 addr0.
(* the weights at the start: x0 comes first *)
have W10 : Rlt (rf_weight (m_data M x) (vec x : rawvec RF) 1%N) (rf_weight (m_data M x) (vec x : rawvec RF) 0%N).
  have WS := @weights_spec M x.
  have [_ ->] := WS 0%N ltac:(rewrite E1; lia); last first.
    by rewrite (Meq _ _ _ _ _ _ _ _ U) /at_bound /bd /at_ /=; case=> // -[]; lra.
  have [_ ->] := WS 1%N ltac:(rewrite E1; lia); last by rewrite (Meq _ _ _ _ _ _ _ _ U) /at_bound /bd /at_ /=; case.
  by rewrite /at_ /= Rabs_R1.
have first v yy := @w_update_state part M _ (the_ech lu srt th sigma M) nonfinite v x nil yy HC HE.
have newton v : let w1 := w_update part M (the_ech lu srt th sigma M) nonfinite v (fin x nil (y :: nil)) in
  good (w_e w1) /\ (w_newton M lus 0 meth failed w1).1 = w1 /\ exists dx dp dy, (w_newton M lus 0 meth failed w1).2 = fin dx dp dy /\
  length dx = 2%N /\ length dp = 0%N /\ length dy = 1%N /\
  (forall i, (i < 2)%N -> Rplus (List.nth i x R0) (List.nth i dx R0) = List.nth i x' R0) /\
  Rplus y (List.nth 0 dy R0) = R0.
  move=> w1; have [r [HQ RU R1' _ R2]] := first v (y :: nil).
  have [GD JB] := GV (w_e v) (m_Wx M x nil) (m_Wp M x nil) _ (or_intror W10).
  set q := (the_ech _ _ _ _ _ _ _ _ _).2 in HQ RU JB.
  split; first by rewrite R2.
  set ev := m_evals M _ nil in HQ RU; set u := MVec _ _ _ in RU.
  have [_ _ _ JU] := @rf_ju _ _ _ _ _ _ (m_data M x) _ _ _ _ u HC HQ.
  have RS : rst r = rf_stability part (ms_nx M) (ms_ny M) (ms_nz M) (m_data M x) ev (m_Wx M x nil) (qjb q) u.
    by move: RU; rewrite /rf_update; case: canonicalize => // c [<-].
  have FR j : (j < 2)%N -> ~ In j (status_ju (rst r)).
    move=> j2; rewrite RS => /JU; rewrite /= (Meq _ _ _ _ _ _ _ _ U) /vec /=.
    by case: j j2 => [|[|j]] //= _ [[H ?]|[H ?]]; lra.
  have HX i j : (i < 2)%N -> (j < 2)%N -> eHxx ev i j = if (i == j) && (i == 1%N) then 1 else 0.
    rewrite /ev /= /m_f (Meq _ _ _ _ _ _ _ _ U) /=.
    case: i => [|[|i]] // _; case: j => [|[|j]] //= _; rewrite /at_ /= -[RHS]/R0; lra.
  have LQ : length (qjb q) = (ms_ny M + ms_nz M)%N by rewrite JB E3 E4.
  have RG : regular (ms_nx M) (ms_np M) (ms_ny M + ms_nz M) ev (m_Wx M x nil) (m_Wp M x nil) (fun j => In j (status_ju (rst r))).
    move=> du; rewrite E1 E2 E3 E4 => -[_ N2 _ N4].
    have Q0 := N2 0%N isT (FR 0%N isT); have Q1 := N2 1%N isT (FR 1%N isT); have Q2 := N4 0%N isT.
    move: Q0 Q1 Q2.
    rewrite (S2 (fun j => eHxx _ 0%N j * mx du j)) (S2 (fun j => eHxx _ 1%N j * mx du j)) (S2 (fun j => m_Wx _ _ _ 0%N j * mx du j)).
    rewrite (S1 (fun l => m_Wx _ _ _ l 0%N * mw du l)) (S1 (fun l => m_Wx _ _ _ l 1%N * mw du l)) !big_ord0 !HX // !W //=.
    rewrite !(mul1r, mul0r, addr0, add0r) => Q0.
    rewrite Q0 mulr0 addr0 => Q1; rewrite Q1 mulr0 addr0 => Q2.
    by split=> [[|[|i]]|k|[|l]].
  have NRS : newton_resolved lus 0 meth (ms_np M) r.
    by rewrite /newton_resolved; case: (meth) NR => // _ k k0; rewrite mul0r normr_gt0.
  have CL i : (i < ms_ny M + ms_nz M)%N -> no_cancellation (ms_ny M) (ms_nz M) (kR (rc r)) (rv_awstar (ms_np M) (ms_ny M) (m_data M x) ev (rM r) (rc r) u) i.
    rewrite E3 E4; case: i => // _; right; rewrite /roundoff !big_ord_recl !big_ord0 !addr0 normrM.
    apply: ler_pimull; first by rewrite mulr_ge0.
    have G' (F : realFieldType) : (2 ^+ 52)^-1 <= 1 :> F by rewrite invf_le1 ?exprn_ege1 ?exprn_gt0 ?ler1n ?ltr0n.
    exact: G'.
  have [du ED ND] := newton_ok LUS (lexx _) HC HQ RU LQ RG NRS (fun _ => 0).
  pose dl := MVec (fun i => vec x' i - vec x i : RF) (fun _ => 0 : RF) (fun l => - vec (y :: nil) l : RF).
  have DN : newton_eqs (ms_nx M) (ms_np M) (ms_ny M + ms_nz M) ev (m_Wx M x nil) (m_Wp M x nil) (fun j => In j (status_ju (rst r)))
     (fun i => - lagrangian (ms_ny M) (ms_nz M) ev (m_Wx M x nil) u i) (fun k => - Residual_model.ev ev k)
     (constraint_left (ms_nx M) (ms_np M) (ms_ny M) (m_data M x) ev (m_Wx M x nil) (m_Wp M x nil) u) dl.
    rewrite E1 E2 E3 E4; split=> //.
    + by move=> i il fi; case: (FR i il fi).
    + move=> i il _; rewrite /lagrangian (S2 (fun j => eHxx _ i j * mx dl j)) big_ord0 (S1 (fun l => m_Wx _ _ _ l i * mw dl l)) (S1 (fun l => m_Wx _ _ _ l i * mw u l)) !HX // W //.
      case: i il => [|[|i]] // _; rewrite /ev /= /m_f (Meq _ _ _ _ _ _ _ _ U) /= /at_ /= ?R_mulE ?R_addE ?R_oppE -?[0]/R0 -?[1]/R1 /vec /x /x' /=; ring.
    + case=> // _; rewrite /constraint_left (S2 (fun j => m_Wx _ _ _ 0%N j * mx dl j)) !big_ord0.
      rewrite (S2 (fun j => m_Wx _ _ _ 0%N j * mx u j)) !W //= (Meq _ _ _ _ _ _ _ _ U) /= ?R_mulE ?R_addE ?R_oppE -?[0]/R0 -?[1]/R1 /vec /x /x' /=.
      lra.
  have ND' : newton_eqs (ms_nx M) (ms_np M) (ms_ny M + ms_nz M) ev (m_Wx M x nil) (m_Wp M x nil) (fun j => In j (status_ju (rst r)))
     (fun i => - lagrangian (ms_ny M) (ms_nz M) ev (m_Wx M x nil) u i) (fun k => - Residual_model.ev ev k)
     (constraint_left (ms_nx M) (ms_np M) (ms_ny M) (m_data M x) ev (m_Wx M x nil) (m_Wp M x nil) u) du.
    case: ND => N1 N2 N3 N4; split=> // l ll.
    by rewrite N4 // (cleaned_exact HC HQ RU LQ CL) addr0.
  have [D1 D2 D3] := newton_unique RG ND' DN.
  have EN : w_newton M lus 0 meth failed w1 = (w1, UVec (List.map XF (vlist (ms_nx M) (mx du))) (List.map XF (vlist (ms_np M) (mp du))) (List.map XF (vlist (ms_ny M + ms_nz M) (mw du)))).
    by rewrite /w_newton R1' ED.
  split; first by rewrite EN.
  exists (vlist (ms_nx M) (mx du)), (vlist (ms_np M) (mp du)), (vlist (ms_ny M + ms_nz M) (mw du)).
  rewrite EN !length_vlist E1 E2 E3 E4; do 4![split=> //].
  have ADD (s t : RF) : Rplus s (t - s) = t by rewrite -R_addE addrC subrK.
  split; first by move=> i il; rewrite (nth_vlist _ il) D1 ?E1 //; exact: ADD.
  by rewrite (nth_vlist _ (isT : (0 < 1 + 0)%N)) D3 ?E3 ?E4 //= /vec /= R_oppE; lra.
have final v : good (w_e v) -> nltb (w_err (w_update part M (the_ech lu srt th sigma M) nonfinite v (fin x' nil (R0 :: nil)))) (o_tol o) = true.
  move=> GD; have [r [HQ RU _ -> _]] := @w_update_state part M _ (the_ech lu srt th sigma M) nonfinite v x' nil (R0 :: nil) HC HE.
  have [_ JB] := GV (w_e v) (m_Wx M x' nil) (m_Wp M x' nil) (rf_weight (m_data M x') (vec x' : rawvec RF)) (or_introl GD).
  have R1Q := RQ (w_e v) x' (rf_weight (m_data M x') (vec x' : rawvec RF)) JB.
  set q := (the_ech _ _ _ _ _ _ _ _ _).2 in HQ RU JB R1Q.
  suff : Rlt (rerror r) tol by rewrite TOL /= /rltb; case: Rlt_dec.
  have t0' : 0 < (tol : RF) by apply/R_ltP.
  apply/R_ltP; apply: (small_error HC HQ RU) => //.
  - by left; rewrite JB.
  - rewrite E1; case=> [|[|i]] // _.
      right; split; first by rewrite JB; left.
      by right; rewrite /= (Meq _ _ _ _ _ _ _ _ U).
    left; left; rewrite /lagrangian E3 E4 (S1 (fun l => m_Wx _ _ _ l 1%N * _ l)) /=.
    rewrite /m_f (Meq _ _ _ _ _ _ _ _ U) /= /at_ /= /vec /=.
    set X := (X in `|X|); have -> : X = 0 by rewrite /X ?R_mulE ?R_addE -?[0]/R0; lra.
    by rewrite normr0.
  - by rewrite E2.
  - rewrite JB; case=> // _.
    have CL l : (l < ms_ny M + ms_nz M)%N -> constraint_left (ms_nx M) (ms_np M) (ms_ny M) (m_data M x') (m_evals M x' nil) (m_Wx M x' nil) (m_Wp M x' nil) (MVec (vec x') (vec nil) (vec (R0 :: nil))) l = 0.
      rewrite E1 E2 E3 E4; case: l => // _; rewrite /constraint_left !big_ord0 (S2 (fun j => m_Wx _ _ _ 0%N j * _ j)) !W //= (Meq _ _ _ _ _ _ _ _ U) /=.
      rewrite ?R_mulE ?R_addE ?R_oppE -?[0]/R0 -?[1]/R1 /vec /x' /=; lra.
    rewrite /combined big1 ?normr0 ?add0r; last by move=> l _; rewrite CL ?mulr0.
    have [k kl Ek] : exists2 k, (k < length (qjb q))%N & kR (rc r) 0%N = qR q k.
      by move: (RU); rewrite /rf_update; case C: canonicalize => [c|//] [<-] /=; apply: (canonicalize_rows HC C); rewrite JB.
    have k0 : k = 0%N by move: kl; rewrite JB; case: k {Ek}.
    have LT : Rlt (Rmult (Rinv (pow 2 52)) (Rmult (Rabs (qR q 0%N 0%N)) (cmag M x' nil 0%N))) tol.
      rewrite R1Q Rabs_R1; apply: Rle_lt_trans T4; rewrite Rmult_1_l Rmult_comm; apply: Rmult_le_compat_r.
        by apply: Rlt_le; apply: Rinv_0_lt_compat; apply: pow_lt; lra.
      rewrite /cmag E1 E2 (target85w _ _ _ _ _ _ _ _ _ _ U); cbn [Wrapper_spec.sum].
      rewrite /cWx E3 /= !(Ax85w _ _ _ _ _ _ _ _ _ _ U); [|lia|lia].
      rewrite /at_ /= Rabs_R0 !Rabs_pos_eq; lra.
    apply: le_lt_trans (_ : _ <= Rmult (Rinv (pow 2 52)) (Rmult (Rabs (qR q 0%N 0%N)) (cmag M x' nil 0%N)) :> RF) _; last by apply/R_ltP.
    rewrite /roundoff Ek k0 -eps_spec E3 E4 ?addn0 [\sum_(_ < _) _]big_ord_recl big_ord0 addr0.
    apply: ler_wpmul2l; first by rewrite invr_ge0; apply: exprn_ge0; apply: ler0n.
    apply: ler_wpmul2l => //; rewrite -[X in rv_awstar _ X]E3.
    exact: (cmag_ge HC HQ 0%N RU).
have [|||||||||||||s [S [Us _]]] := @solve_one_step _ (w_update part M (the_ech lu srt th sigma M) nonfinite) (fun w _ => w_err w) (w_newton M lus 0 meth failed) check (m_bounds M) o
   x nil (y :: nil) x' nil (R0 :: nil) _ _ _ _ _ _ _ _ _ _ _ _ _ MX fuel w0 hist.
- by rewrite G1 E1.
- by rewrite -(Forall2_len _ _ _ G3) G1 E1.
- by rewrite G2 E2.
- by rewrite -(Forall2_len _ _ _ G4) G2 E2.
- by [].
- by [].
- by [].
- by rewrite (Meq _ _ _ _ _ _ _ _ U); apply: (inside85w a e); lra.
- by move=> i /= Hi; exfalso; lia.
- by rewrite (Meq _ _ _ _ _ _ _ _ U); apply: (inside85w a e); lra.
- by move=> i /= Hi; exfalso; lia.
- move=> v; have [_ [_ [dx [dp [dy [H1 [H2 [H3 [H4 [H5 H6]]]]]]]]]] := newton v.
  exists dx, dp, dy; do 4![split=> //]; split; first by move=> i /ssrnat.ltP; apply: H5.
  by split=> [i /= Hi|[|i] /= Hi] //; exfalso; lia.
- move=> v; have [H1 [-> _]] := newton v; exact: final.
have [st' [S' H]] := @lift_run part _ (the_ech lu srt th sigma M) nonfinite (w_newton M lus 0 meth failed) None check fuel.+1 o f1 f2 f3 oAx oAp obc w0 hist m (P85w a e) M st
  x nil nil nil (y :: nil) nil nil nil x' nil nil nil (R0 :: nil) nil nil nil _ s U ST erefl erefl erefl erefl erefl erefl erefl S Us.
by exists (Result true 1 nzero), st'.
Qed.

(** ** C85 without [well_pivoted].  min a (x0 - 1)^4/4 + x1^2/2 subject to x0 + e x1 = 2, x0 <= 2, with a coefficient e
    that is not zero but not above the threshold: a convex problem whose active constraints are independent
    at every feasible point.  From every point (1, b) with |b| < 1 solve reports success after one iteration at (2, 0)
    with the multiplier 0, for every tolerance above round-off.  There x0 is on its upper bound and the derivative of the
    Lagrange function with respect to x0 is a, with the wrong sign and as large as one likes: x0 stays basic since x1 depends on it
    too weakly, and errors of basic variables on their bounds do not count (ResidualErrors.cpp:96-103).  The objective function
    is a/4 there, although it is 1/(2 e^2) at the feasible point (1, 1/e) (less, for a > 2/e^2): C91 fails as well. *)
Theorem C85_weak_refuted : forall th e a, Rlt 0 e -> Rle e th -> Rlt th 1 -> Rlt 0 a ->
  let P := P85w a e in
  conforming P /\ ordered_bounds P /\ convex_problem P 0 nil /\
  (forall u v, feasible_for P nil (u :: v :: nil) -> licq P (u :: v :: nil) nil nil nil) /\
  (forall tol jb, Rle tol a -> ~ In 0%N jb -> ~ user_near P tol jb (IZR 2 :: R0 :: nil) nil nil nil (R0 :: nil) nil nil nil) /\
  feasible_for P nil (IZR 2 :: R0 :: nil) /\ objective P (IZR 2 :: R0 :: nil) nil = Rdiv a 4 /\
  feasible_for P nil (R1 :: Rinv e :: nil) /\ objective P (R1 :: Rinv e :: nil) nil = Rinv (Rmult 2 (pow e 2)) /\
  forall part lu srt sigma nonfinite lus meth failed check fuel o f1 f2 f3 oAx oAp obc w0 hist m M st b y tol,
    partition_contract part -> lu_correct lu -> sort_correct srt -> (forall n (A : 'M[RF]_n), full_piv A (lus n A)) -> meth <> Rangespace ->
    update_master f1 f2 f3 oAx oAp obc P = Some M ->
    Rlt (Rabs b) 1 -> state_sized (p_dims P) st -> starts_at st (R1 :: b :: nil) nil nil nil (y :: nil) nil nil nil ->
    o_tol o = XF tol -> Rlt (Rmult 4 (Rinv (pow 2 52))) tol -> (1 <= o_maxiters o)%coq_nat ->
    exists r st', u_solve part (the_ech lu srt th sigma M) nonfinite (w_newton M lus 0 meth failed) None check (S fuel) o f1 f2 f3 oAx oAp obc w0 hist m P st = Some (r, st') /\
      r_succeeded r = true /\ r_iterations r = 1%N /\ starts_at st' (IZR 2 :: R0 :: nil) nil nil nil (R0 :: nil) nil nil nil.
Proof.
move=> th e a e0 eth th1 a0 P.
split; first by repeat split.
split; first by split=> //; split; repeat constructor.
split; first exact: convex85w.
split.
  move=> u v _; case: (Req_dec u 2) => [->|N]; last exact: licq85w_off.
  by apply: licq85w; lra.
split; first by move=> tol jb; apply: not_near85w.
split; first by apply: feasible85w; lra.
split; first by rewrite objective85w; lra.
split; first by apply: feasible85w; rewrite ?Rinv_r; lra.
split; first by rewrite objective85w /=; field; lra.
move=> part lu srt sigma nonfinite lus meth failed check fuel o f1 f2 f3 oAx oAp obc w0 hist m M st b y tol.
by move=> HC LC SC LUS NR U b1 SS ST TOL T4 MX; apply: (run85w _ _ _ _ _ _ _ _ HC LC SC e0 eth th1 a0 LUS NR U b1 SS ST TOL T4 MX).
Qed.
Print Assumptions C85_weak_refuted.

(** The threshold of the code, a = 4e16 and tolerance 1: solve accepts an objective function of 1e16 where 5e15 is possible. *)
Definition st85w : ustate xreal := UState (p_dims (P85w R1 R1)) (XF R1 :: XF R0 :: nil) nil (XF R0 :: nil) nil nil nil nil nil nil nil nil nil nil nil nil.
Example C85_weak_case : let a := Rdiv 4 (pow code_threshold 2) in let P := P85w a code_threshold in exists lu srt lus M r st',
  [/\ lu_correct lu /\ sort_correct srt, update_master mem7 mem7 mem7 old7 old7 old7 P = Some M,
      u_solve libstdcxx_partition (the_ech lu srt code_threshold 0 M) (fun a _ => (a, XNaN)) (w_newton M lus 0 Nullspace (fun w => (w, fin nil nil nil))) None None 1
        (Options 5 (XF R1) false) mem7 mem7 mem7 old7 old7 old7 w83 nil m0 P st85w = Some (r, st'),
      r_succeeded r = true /\ starts_at st' (IZR 2 :: R0 :: nil) nil nil nil (R0 :: nil) nil nil nil &
      Rlt (objective P (R1 :: Rinv code_threshold :: nil) nil) (objective P (IZR 2 :: R0 :: nil) nil)].
Proof.
move=> a P; have [lu LC] := lu_correct_exists RF; have [srt SC] := sort_correct_exists RF; have [lus LUS] := lu_exists RF.
have [c0 c1] := code_threshold_range.
have c2 : Rlt 0 (pow code_threshold 2) by apply: pow_lt.
have a0 : Rlt 0 a by rewrite /a; apply: Rdiv_lt_0_compat; lra.
have [_ [_ [_ [_ [_ [_ [O1 [_ [O2 H]]]]]]]]] := @C85_weak_refuted code_threshold code_threshold a c0 (Rle_refl _) c1 a0.
have [M U] : exists M, update_master mem7 mem7 mem7 old7 old7 old7 P = Some M by eexists; reflexivity.
have [||||||||||||r [st' [H1 [H2 [_ H3]]]]] := H libstdcxx_partition lu srt 0 (fun a _ => (a, XNaN)) lus Nullspace (fun w => (w, fin nil nil nil)) None 0%N
  (Options 5 (XF R1) false) mem7 mem7 mem7 old7 old7 old7 w83 nil m0 M st85w R0 R0 R1 => //.
- exact: libstdcxx_contract.
- by rewrite Rabs_R0; lra.
- have L : Rlt 4 (pow 2 52) by apply: (Rlt_trans _ (pow 2 3)); [rewrite /=; lra | apply: Rlt_pow; [lra | lia]].
  by move: (pow 2 52) L => t L; apply: (Rmult_lt_reg_r t); [lra | rewrite Rmult_assoc Rinv_l; lra].
- by rewrite /=; lia.
exists lu, srt, lus, M, r, st'; split=> //; rewrite O1 O2 /a.
have -> : Rinv (Rmult 2 (pow code_threshold 2)) = Rdiv (Rinv (pow code_threshold 2)) 2 by field; lra.
have -> : Rdiv (Rdiv 4 (pow code_threshold 2)) 4 = Rinv (pow code_threshold 2) by field; lra.
by have := Rinv_0_lt_compat _ c2; lra.
Qed.
