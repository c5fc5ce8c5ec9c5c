(** Property theorems C91: solutions of convex problems. *)
From Coq Require Import List PeanoNat Permutation Reals Lra Lia.
From mathcomp Require Import all_ssreflect all_fingroup all_algebra.
From Verif Require Import Num Num_facts Index_model Index_spec Index_proofs Num_rf R_rf Echelon_model Echelon_spec LU_model LU_spec Linear_model Linear_spec Canonical_model Canonical_spec.
From Verif Require Import ResErr_model Residual_model Residual_spec Residual_proofs P_Residual EchelonO_model EchelonO_spec EchelonO_proofs EchelonOEx_proofs.
From Verif Require Import Loop_model Loop_spec Loop_proofs P_Loop Wrapper_model Wrapper_spec Wrapper_proofs P_Wrapper End_model End_spec Near_proofs End_proofs.
From Verif Require Import Newton_model Newton_spec Newton_proofs Exact_spec P_Newton P_End P_EchelonO Pivot_spec Pivot_proofs Indep_proofs Status_spec P_Status P_Licq Convex_spec Convex_proofs ConvexEx_proofs.
Set Implicit Arguments.
Unset Strict Implicit.
Unset Printing Implicit Defensive.
Import Order.TTheory GRing.Theory Num.Theory.
Local Open Scope ring_scope.
Local Notation "l ++ l'" := (List.app l l') : seq_scope.

(** ** C91.  When Solver::solve reports success for a problem that is convex for the parameters returned, no
    feasible point has a smaller value of the objective function than the point returned, up to the
    tolerance times the spread and what the allowed violations of the constraints are worth; for a strongly
    convex objective function the distance counts in addition.  Missing: as in C85 (independent active
    constraints that the echelonizer tells apart at the returned point; user checks of convergence). *)
Theorem C91_success_partial : forall part lu srt th sigma nonfinite newton phi fuel o f1 f2 f3 oAx oAp obc w0 hist m P M st r st'
    tol mu x xbg xhg p ye yg ze zg,
  let d := p_dims P in
  partition_contract part -> lu_correct lu -> sort_correct srt -> 0 <= th ->
  conforming P -> ordered_bounds P -> block_unspoiled f1 oAx d -> update_master f1 f2 f3 oAx oAp obc P = Some M ->
  state_sized d st -> length (s_p st) = d_p d ->
  (forall w, sized (nxbar d) (d_p d) (ny d + nz d) (snd (newton w))) ->
  (forall ph w xo x, phi = Some ph -> length x = nxbar d -> length (snd (ph w xo x)) = nxbar d) ->
  o_tol o = XF tol -> Rlt 0 tol ->
  u_solve part (the_ech lu srt th sigma M) nonfinite newton phi None fuel o f1 f2 f3 oAx oAp obc w0 hist m P st = Some (r, st') ->
  r_succeeded r = true -> starts_at st' x xbg xhg p ye yg ze zg -> licq P x xbg xhg p -> well_pivoted th M (x ++ xbg ++ xhg) p ->
  convex_problem P mu p ->
  exists jb V, inverts M (x ++ xbg ++ xhg) p jb V /\ (forall j, In j jb -> ~ at_bound (at_ (x ++ xbg ++ xhg) j) (bd (ms_xlower M) j) (bd (ms_xupper M) j)) /\
    let room := allowed M (x ++ xbg ++ xhg) p tol jb V in
    (forall y, length y = d_x d -> feasible_for P p y ->
       Rle (Rplus (objective P x p) (Rmult (Rdiv mu 2) (distance2 (d_x d) x y)))
           (Rplus (Rplus (objective P y p) (Rmult tol (spread P p x y))) (worth d room ye yg ze zg))) /\
    (** and, by comparison with a KKT point y, multipliers ve, vg, we, wg: *)
    (forall y ve vg we wg, length y = d_x d -> user_kkt P y p ve vg we wg ->
       Rle (Rplus (objective P y p) (Rmult (Rdiv mu 2) (distance2 (d_x d) x y))) (Rplus (objective P x p) (worth d room ve vg we wg)) /\
       Rle (Rmult mu (distance2 (d_x d) x y))
           (Rplus (Rplus (Rmult tol (spread P p x y)) (worth d room ye yg ze zg)) (worth d room ve vg we wg))).
Proof.
move=> part lu srt th sigma nonfinite newton phi fuel o f1 f2 f3 oAx oAp obc w0 hist m P M st r st' tol mu x xbg xhg p ye yg ze zg d.
move=> HC LC SC th0 C O B U SS Lp HN HP TOL t0 S OK ST LI WPV CX.
have [UN [jb [V [V1 [V2 UC]]]]] := C85_success_partial HC LC SC th0 C O B U SS Lp HN HP TOL S OK ST LI WPV.
exists jb, V; split=> //; split=> //; rewrite /=; set room := allowed _ _ _ _ _ _ in UC *.
have Lx : length x = d_x d.
  have [[LX _] _] := returned_sized C O SS Lp HN HP S.
  by case: ST => E1 _; rewrite E1 List.map_length in LX.
have NM y (Ly : length y = d_x d) (F : feasible_for P p y) := near_minimum _ _ _ _ _ _ _ _ _ _ _ _ _ t0 Lx Ly CX UN UC F.
split=> // y ve vg we wg Ly K.
have [W _] := UN.
have K1 := kkt_below P mu room y xbg xhg p ve vg we wg x Ly Lx K CX W UC.
rewrite -/d [distance2 _ y x]distance2_sym in K1.
have F : feasible_for P p y by case: K => -[H1 [H2 [H3 [H4 [_ [H5 _]]]]]] _; do 4![split=> //].
have := NM y Ly F; rewrite -/d; split=> //; lra.
Qed.
Print Assumptions C91_success_partial.

(** The family of problems of ConvexEx_proofs is solved in one iteration from every point off the bounds. *)
Lemma run91 part lu srt th sigma nonfinite lus meth failed check fuel o f1 f2 f3 oAx oAp obc w0 hist m s M st a b y tol :
  partition_contract part -> lu_correct lu -> sort_correct srt -> 0 <= th -> (forall n (A : 'M[RF]_n), full_piv A (lus n A)) -> meth <> Rangespace ->
  block_unspoiled f1 oAx (p_dims (P91 s)) -> update_master f1 f2 f3 oAx oAp obc (P91 s) = Some M ->
  s <> R0 -> Rlt 0 a -> Rlt 0 b -> state_sized (p_dims (P91 s)) st -> starts_at st (a :: b :: nil) nil nil nil (y :: nil) nil nil nil ->
  o_tol o = XF tol -> Rlt (Rmult 6 (Rinv (pow 2 52))) tol -> (1 <= o_maxiters o)%coq_nat ->
  exists r st', u_solve part (the_ech lu srt th sigma M) nonfinite (w_newton M lus 0 meth failed) None check (S fuel) o f1 f2 f3 oAx oAp obc w0 hist m (P91 s) st = Some (r, st') /\
    r_succeeded r = true /\ r_iterations r = 1%N /\ starts_at st' (R1 :: IZR 2 :: nil) nil nil nil (R0 :: nil) nil nil nil.
Proof.
move=> HC LC SC th0 LU NR BU U s0 a0 b0 SS ST TOL T6 MX.
have EM : [/\ ms_nx M = 2%N, ms_np M = 0%N, ms_ny M = 1%N & ms_nz M = 0%N] by rewrite (Meq _ _ _ _ _ _ _ _ U).
have [E1 E2 E3 E4] := EM.
have HE : ech_contract M (the_ech lu srt th sigma M) by exact: C83_contract.
have UB := unspoiled_block _ _ _ BU.
have W x p j : (j < 2)%N -> m_Wx M x p 0%N j = 1.
  move=> j2; rewrite /m_Wx E3 /=.
  exact: (Ax91 _ _ _ _ _ _ _ _ _ U (ssrnat.ltP j2)).
have CF : conforming (P91 s) by repeat split.
have OB : ordered_bounds (P91 s) by split=> //; split; repeat constructor.
have IQ : independent_equalities (P91 s) (a :: b :: nil) nil.
  by apply: (licq_independent _ _ nil nil); exact: licq91.
have t0 : Rlt R0 tol by exact: small52.
have JQ h wt (x : list R) : length x = 2%N -> independent_equalities (P91 s) x nil -> let q := (the_ech lu srt th sigma M h (m_Wx M x nil) (m_Wp M x nil) wt).2 in
  length (qjb q) = 1%N /\ qR q 0%N 0%N = R1.
  move=> Lx IE q.
  have LQ : length (qjb q) = 1%N.
    rewrite /q -[in m_Wx M x nil](List.app_nil_r x) -[in m_Wp M x nil](List.app_nil_r x).
    exact: (@the_ech_full lu srt th sigma _ _ _ _ _ _ (P91 s) M x nil nil nil h wt LC SC th0 U BU Lx erefl erefl IE).
  split=> //; have [PQ QE _ _] := HE h x nil wt nil.
  have := QE 0%N 0%N; rewrite -/q LQ E3 E4 => /(_ isT isT).
  have J2 : (ix (qjb q) 0 < 2)%N.
    have : In (ix (qjb q) 0) (indices (ms_nx M)).
      apply: (Permutation_in _ (Permutation_sym PQ)); apply/in_app_iff; left; rewrite -/q /ix; apply: nth_In; rewrite LQ; lia.
    by rewrite /indices E1 => /in_seq [_ /ssrnat.ltP].
  by rewrite big_ord_recl big_ord0 /= W // mulr1 addr0.
apply: (@C81_user_partial part _ (the_ech lu srt th sigma M) nonfinite lus 0 meth failed check fuel o f1 f2 f3 oAx oAp obc w0 hist m (P91 s) M st
   (a :: b :: nil) nil nil nil (y :: nil) nil nil nil (R1 :: IZR 2 :: nil) nil nil nil (R0 :: nil) nil nil nil tol HC CF OB BU U HE LU (lexx _) SS) => //.
- by apply: inside91; lra.
- by move=> i /= Hi; exfalso; lia.
- by move=> i /= Hi; exfalso; lia.
- by move=> i /= Hi; exfalso; lia.
- exact: kkt91.
- by split=> i /= Hi; exfalso; lia.
- exact: exact91.
- move=> h wt _; set q := (the_ech _ _ _ _ _ _ _ _ _).2.
  have [LQ RQ] := JQ h wt (a :: b :: nil) erefl IQ; rewrite -/q in LQ RQ.
  split; first by rewrite E3 E4.
  have HQ := HE h (a :: b :: nil) nil wt; rewrite -/q in HQ.
  set x := a :: b :: nil in HQ *; set e := m_evals M _ nil in HQ *; set u := MVec _ _ _ => r RU.
  have [_ _ _ JU] := @rf_ju _ _ _ _ _ _ (m_data M x) _ _ _ _ u HC HQ.
  have RS : rst r = rf_stability part (ms_nx M) (ms_ny M) (ms_nz M) (m_data M x) e (m_Wx M x nil) (qjb q) u.
    by move: RU; rewrite /rf_update; case: canonicalize => // c [<-].
  have FR j : (j < 2)%N -> ~ In j (status_ju (rst r)).
    move=> j2; rewrite RS => /JU; rewrite /= (Meq _ _ _ _ _ _ _ _ U) /vec /=.
    by case: j j2 => [|[|j]] //= _ [[H _]|[H _]]; lra.
  have S2 (f : nat -> RF) : \sum_(j < 2) f j = f 0%N + f 1%N by rewrite !big_ord_recl big_ord0 addr0.
  have S1 (f : nat -> RF) : \sum_(j < 1 + 0) f j = f 0%N by rewrite big_ord_recl big_ord0 addr0.
  have HX i j : (i < 2)%N -> (j < 2)%N -> eHxx e i j = if i == j then s else 0.
    by rewrite /e /= /m_f (Meq _ _ _ _ _ _ _ _ U) /=; case: i => [|[|i]] // _; case: j => [|[|j]].
  split.
  + move=> du; rewrite E1 E2 E3 E4 => -[_ N2 _ N4].
    have Q0 := N2 0%N isT (FR 0%N isT); have Q1 := N2 1%N isT (FR 1%N isT); have Q2 := N4 0%N isT.
    move: Q0 Q1 Q2.
    rewrite (S2 (fun j => eHxx _ 0%N j * mx du j)) (S2 (fun j => eHxx _ 1%N j * mx du j)) (S2 (fun j => m_Wx _ _ _ 0%N j * mx du j)).
    rewrite (S1 (fun l => m_Wx _ _ _ l 0%N * mw du l)) (S1 (fun l => m_Wx _ _ _ l 1%N * mw du l)) !big_ord0 !HX // !W //.
    rewrite !eqxx /= !(mul1r, mul0r, addr0, add0r) => Q0 Q1 Q2.
    have Z : mx du 1%N = - mx du 0%N by apply/eqP; rewrite -addr_eq0 addrC Q2.
    have W0 : mw du 0%N = 0.
      have : mw du 0%N + mw du 0%N = 0 by rewrite -[RHS](addr0 0) -{1}Q0 -Q1 Z mulrN addrACA addrN add0r.
      by move/eqP; rewrite -mulr2n mulrn_eq0 => /eqP.
    have X0 : mx du 0%N = 0 by move: Q0; rewrite W0 addr0 => /eqP; rewrite mulf_eq0 => /orP [/eqP|/eqP].
    by split=> [[|[|i]]|k|[|l]] //; rewrite ?Z ?X0 ?oppr0.
  + by rewrite /newton_resolved; case: (meth) NR => // _ k k0; rewrite mul0r normr_gt0.
  + rewrite E3 E4; case=> // _; right; rewrite /roundoff !big_ord_recl !big_ord0 !addr0 normrM.
    apply: ler_pimull; first by rewrite mulr_ge0.
    have G (F : realFieldType) : (2 ^+ 52)^-1 <= 1 :> F by rewrite invf_le1 ?exprn_ege1 ?exprn_gt0 ?ler1n ?ltr0n.
    exact: G.
  + move=> j; rewrite E1 => jl; split=> [H|_]; first by case: (FR j (introT ssrnat.ltP jl) H).
    have G : cgrad M (R1 :: IZR 2 :: nil) nil (R0 :: nil) 0 = R0 /\ cgrad M (R1 :: IZR 2 :: nil) nil (R0 :: nil) 1 = R0.
      by rewrite /cgrad E3 E4 (Meq _ _ _ _ _ _ _ _ U) /= /stacked /at_ /=; split; lra.
    by case: G; case: j jl => [|[|j]] jl //; lia.
- move=> h wt _; set q := (the_ech _ _ _ _ _ _ _ _ _).2.
  have IQ' : independent_equalities (P91 s) (R1 :: IZR 2 :: nil) nil by apply: (licq_independent _ _ nil nil); apply: licq91; lra.
  have [LQ RQ] := JQ h wt (R1 :: IZR 2 :: nil) erefl IQ'; rewrite -/q in LQ RQ.
  split; first by left=> H; rewrite H in LQ.
  rewrite LQ; case=> [_|i Hi]; last by lia.
  apply: Rle_lt_trans T6; rewrite /row_room E3 E4; cbn [Wrapper_spec.sum Nat.add]; rewrite RQ Rabs_R1.
  rewrite /cmag E1 E2 (target91 _ _ _ _ _ _ _ _ _ U); cbn [Wrapper_spec.sum].
  rewrite /cWx E3 !(Ax91 _ _ _ _ _ _ _ _ _ U); [|lia|lia].
  rewrite /at_ /= !Rabs_pos_eq; lra.
Qed.

(** ** Without convexity: min -((x0 - 1)^2 + (x1 - 2)^2)/2 subject to x0 + x1 = 3, x >= 0.  From every start off
    the bounds - however close to the local minimum (0, 3), a KKT point with independent active constraints where the derivative of the
    Lagrange function with respect to the variable on its bound is not zero - solve reports success after one iteration
    at (1, 2), where the objective function is larger than at every other feasible point.  (Hence also the condition of
    C87 that the variables held at the solution start on their bounds.) *)
Theorem C91_maximum_refuted : let P := P91 (IZR (-1)) in
  conforming P /\ ordered_bounds P /\ convex_problem P (IZR (-1)) nil /\
  user_kkt P (R0 :: IZR 3 :: nil) nil (R1 :: nil) nil nil nil /\ licq P (R0 :: IZR 3 :: nil) nil nil nil /\
  (forall a b, feasible_for P nil (a :: b :: nil) -> Rlt a 2 -> a <> R0 -> Rlt (objective P (R0 :: IZR 3 :: nil) nil) (objective P (a :: b :: nil) nil)) /\
  (forall a b, feasible_for P nil (a :: b :: nil) -> a :: b :: nil <> R1 :: IZR 2 :: nil -> Rlt (objective P (a :: b :: nil) nil) (objective P (R1 :: IZR 2 :: nil) nil)) /\
  forall part lu srt th sigma nonfinite lus meth failed check fuel o f1 f2 f3 oAx oAp obc w0 hist m M st a b y tol,
    partition_contract part -> lu_correct lu -> sort_correct srt -> 0 <= th -> (forall n (A : 'M[RF]_n), full_piv A (lus n A)) -> meth <> Rangespace ->
    block_unspoiled f1 oAx (p_dims P) -> update_master f1 f2 f3 oAx oAp obc P = Some M ->
    Rlt 0 a -> Rlt 0 b -> state_sized (p_dims P) st -> starts_at st (a :: b :: nil) nil nil nil (y :: nil) nil nil nil ->
    o_tol o = XF tol -> Rlt (Rmult 6 (Rinv (pow 2 52))) tol -> (1 <= o_maxiters o)%coq_nat ->
    exists r st', u_solve part (the_ech lu srt th sigma M) nonfinite (w_newton M lus 0 meth failed) None check (S fuel) o f1 f2 f3 oAx oAp obc w0 hist m P st = Some (r, st') /\
      r_succeeded r = true /\ r_iterations r = 1%N /\ starts_at st' (R1 :: IZR 2 :: nil) nil nil nil (R0 :: nil) nil nil nil.
Proof.
split; first by repeat split.
split; first by split=> //; split; repeat constructor.
split; first exact: convex91.
split; first exact: kkt91'.
split; first exact: licq91'.
split; first exact: local91.
split; first exact: maximum91.
move=> part lu srt th sigma nonfinite lus meth failed check fuel o f1 f2 f3 oAx oAp obc w0 hist m M st a b y tol.
move=> HC LC SC th0 LUS NR BU U a0 b0 SS ST TOL T6 MX.
by apply: (run91 _ _ _ _ _ _ _ _ HC LC SC th0 LUS NR BU U _ a0 b0 SS ST TOL T6 MX); lra.
Qed.
Print Assumptions C91_maximum_refuted.

(** The hypotheses of C91: with the sign changed the problem is strongly convex and, from the infeasible point (1/2, 1/2), the same
    calculation finds the minimum (1, 2). *)
Definition st91 : ustate xreal := UState (p_dims (P91 R1)) (XF (Rinv 2) :: XF (Rinv 2) :: nil) nil (XF R0 :: nil) nil nil nil nil nil nil nil nil nil nil nil nil.
Example C91_case : exists lu srt lus M r st',
  [/\ [/\ lu_correct lu, sort_correct srt & forall n (A : 'M[RF]_n), full_piv A (lus n A)],
      [/\ conforming (P91 R1), ordered_bounds (P91 R1) & update_master mem7 mem7 mem7 old7 old7 old7 (P91 R1) = Some M],
      [/\ convex_problem (P91 R1) R1 nil, licq (P91 R1) (R1 :: IZR 2 :: nil) nil nil nil & well_pivoted code_threshold M (R1 :: IZR 2 :: nil) nil],
      user_kkt (P91 R1) (R1 :: IZR 2 :: nil) nil (R0 :: nil) nil nil nil /\ feasible_for (P91 R1) nil (R0 :: IZR 3 :: nil) &
      u_solve libstdcxx_partition (the_ech lu srt code_threshold 0 M) (fun a _ => (a, XNaN)) (w_newton M lus 0 Nullspace (fun w => (w, fin nil nil nil))) None None 1
        (Options 5 (XF R1) false) mem7 mem7 mem7 old7 old7 old7 w83 nil m0 (P91 R1) st91 = Some (r, st') /\
      r_succeeded r = true /\ starts_at st' (R1 :: IZR 2 :: nil) nil nil nil (R0 :: nil) nil nil nil].
Proof.
have [lu LC] := lu_correct_exists RF; have [srt SC] := sort_correct_exists RF; have [lus LUS] := lu_exists RF.
have ct : (0 : RF) < code_threshold /\ (code_threshold : RF) < 1 by split; apply/R_ltP; case: code_threshold_range.
have [M U] : exists M, update_master mem7 mem7 mem7 old7 old7 old7 (P91 R1) = Some M by eexists; reflexivity.
have [|||||||||r [st' [H1 [H2 [_ H3]]]]] := @run91 libstdcxx_partition lu srt code_threshold 0 (fun a _ => (a, XNaN)) lus Nullspace (fun w => (w, fin nil nil nil)) None 0
  (Options 5 (XF R1) false) mem7 mem7 mem7 old7 old7 old7 w83 nil m0 R1 M st91 (Rinv 2) (Rinv 2) R0 R1 libstdcxx_contract LC SC (ltW (proj1 ct)) LUS _ (or_intror (or_introl erefl)) U.
- by [].
- exact: R1_neq_R0.
- by apply: Rinv_0_lt_compat; lra.
- by apply: Rinv_0_lt_compat; lra.
- by repeat split.
- by repeat split.
- by [].
- have L : Rlt 6 (pow 2 52) by apply: (Rlt_trans _ (pow 2 3)); [rewrite /=; lra | apply: Rlt_pow; [lra | lia]].
  by move: (pow 2 52) L => t L; apply: (Rmult_lt_reg_r t); [lra | rewrite Rmult_assoc Rinv_l; lra].
- by rewrite /=; lia.
- exists lu, srt, lus, M, r, st'; split=> //; first by split=> //; split=> //; split; repeat constructor.
    split; [exact: convex91 | by apply: licq91; lra |].
    apply: well_pivoted_row; [exact: (proj2 code_threshold_range) | by rewrite (Meq _ _ _ _ _ _ _ _ U) |].
    rewrite [ms_nx M](_ : _ = 2%N) ?(Meq _ _ _ _ _ _ _ _ U) // => j jl; right; rewrite -[RHS]Rabs_R1; congr Rabs.
    by rewrite -(Meq _ _ _ _ _ _ _ _ U) -(Ax91 _ _ _ _ _ _ _ _ _ U jl) /m_Wx (Meq _ _ _ _ _ _ _ _ U).
  by split; [exact: kkt91 | apply/feasible91; lra].
Qed.
