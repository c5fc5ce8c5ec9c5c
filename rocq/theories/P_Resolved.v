(** Property theorems C36, C37, C80, C81 and C92: what the threshold of LU::solve does to the calculation. *)
From Coq Require Import List PeanoNat Permutation Reals Lra Lia.
From mathcomp Require Import all_ssreflect all_fingroup all_algebra.
From Verif Require Import Num Num_facts Index_model Index_spec Index_proofs Num_rf R_rf Echelon_model Echelon_spec LU_model LU_spec Linear_model Linear_spec P_Linear Canonical_model Canonical_spec Canonical_proofs.
From Verif Require Import ResErr_model Residual_model Residual_spec Residual_proofs P_Residual Accept_proofs EchelonO_model EchelonO_spec EchelonO_proofs EchelonOEx_proofs Stay_proofs.
From Verif Require Import Loop_model Loop_spec Loop_proofs P_Loop Wrapper_model Wrapper_spec Wrapper_proofs P_Wrapper End_model End_spec Near_proofs End_proofs.
From Verif Require Import Newton_model Newton_spec Newton_proofs Exact_spec Exact_proofs P_Newton P_End P_EchelonO Pivot_spec Pivot_proofs Indep_proofs Status_spec P_Status P_Licq Convex_spec Quadratic_spec P_Quadratic Cycle_proofs Dropped_proofs ThresholdEx_proofs.
Set Implicit Arguments.
Unset Strict Implicit.
Unset Printing Implicit Defensive.
Import Order.TTheory GRing.Theory Num.Theory.
Local Open Scope ring_scope.
Local Notation "l ++ l'" := (List.app l l') : seq_scope.

(** ** C36 and C37 without resolved right-hand sides.  For every positive eps there are a canonical system - the identity of
    order two, as nonsingular as can be - and a right-hand side for which both solvers, whatever the pivots, answer zero. *)
Definition J2 (F : realFieldType) : cmat F (0 + 0) 2 0 := CMat 1%:M 0 0 0 0 0.
Definition a2 (F : realFieldType) (g : F) : cvec F (0 + 0) 2 0 := CVec (const_mx g) 0 0.
Lemma J2_nonsingular (F : realFieldType) : nonsingular (J2 F).
Proof.
move=> u [E _ _]; apply: zero_cvec; move: E; rewrite /J2 /= mul1mx mul0mx addr0.
by rewrite (empty_mx (vw u) 0) ?mulmx0 ?col_mx0 ?addr0; last by left.
Qed.
Lemma a2_unsolved (F : realFieldType) (g : F) : g != 0 -> ~ canonical_eqs (J2 F) (a2 g) (CVec 0 0 0).
Proof.
move=> g0 [E _ _]; move: E; rewrite /J2 /a2 /= !mulmx0 col_mx0 !addr0 => /matrixP /(_ ord0 0); rewrite !mxE => /esym /eqP.
by rewrite (negbTE g0).
Qed.
Lemma large_inv (F : realFieldType) (eps : F) : 0 < eps -> 1 <= eps * `|eps^-1|.
Proof. by move=> e0; rewrite ger0_norm ?invr_ge0 ?(ltW e0) // mulfV ?lexx ?lt0r_neq0. Qed.

Theorem C36_refuted : forall (F : realFieldType) (eps : F), 0 < eps -> exists (J : cmat F 0 2 0) (a : cvec F 0 2 0), nonsingular J /\
  forall f, full_piv (full_matrix J) f -> exists2 u, fullspace eps f a = Some u & ~ canonical_eqs J a u.
Proof.
move=> F eps e0; exists (J2 F), (a2 eps^-1); split; first exact: J2_nonsingular.
move=> f fp; exists (CVec 0 0 0); last by apply: a2_unsolved; rewrite invr_eq0 lt0r_neq0.
apply: (full_dropped _ _ _ _ _ fp) => // i; rewrite mxE; exact: large_inv.
Qed.
Print Assumptions C36_refuted.

Theorem C37_refuted : forall (F : realFieldType) (eps : F), 0 < eps -> exists (J : cmat F (0 + 0) 2 0) (a : cvec F (0 + 0) 2 0), nonsingular J /\
  forall f, full_piv (nM (null_decompose J)) f -> exists2 u, nullspace eps f J a = Some u & ~ canonical_eqs J a u.
Proof.
move=> F eps e0; exists (J2 F), (a2 eps^-1); split; first exact: J2_nonsingular.
move=> f fp; exists (CVec 0 0 0); last by apply: a2_unsolved; rewrite invr_eq0 lt0r_neq0.
apply: (null_dropped _ _ _ _ _ _ fp) => // i; rewrite mxE; exact: large_inv.
Qed.
Print Assumptions C37_refuted.

(** ** The Newton direction of two variables without constraints and parameters whose Hessian is the identity, when
    both components of the gradient are 1/eps or more. *)
Section Direction.
Variables (F : realFieldType) (lu : forall n, 'M[F]_n -> lufac F n) (eps : F) (meth : lsmethod) (part : partition_impl).
Hypothesis LU : forall n (A : 'M[F]_n), full_piv A (lu A).
Hypothesis NR : meth <> Rangespace.
Hypothesis HC : partition_contract part.
Variables (d : pdata F) (e : evals F) (Wx Wp : rawmx F) (q : rwq F) (u : mvec F) (r : residual F).
Hypothesis HE : echelon_of 2 0 (0 + 0) e Wx Wp q.
Hypothesis RU : rf_update part 2 0 0 0 d e Wx Wp q u = Some r.
Hypothesis HX : forall i j, (i < 2)%N -> (j < 2)%N -> eHxx e i j = (i == j)%:R.
Hypothesis HG : forall i, (i < 2)%N -> 1 <= eps * `|eg e i|.

Lemma no_basic : qjb q = nil.
Proof.
have [_ H _ _] := HE nil; case E: (qjb q) H => [|j l] // /(_ 0%N 0%N isT isT).
by rewrite big_ord0 => /eqP; rewrite eq_sym oner_eq0.
Qed.
Lemma none_unstable : status_ju (rst r) = nil.
Proof.
have -> : rst r = rf_stability part 2 0 0 d e Wx (qjb q) u by move: RU; rewrite /rf_update; case: canonicalize => // c [<-].
by rewrite /rf_stability no_basic; apply: stability_empty_ju.
Qed.
Lemma dropped_step u0 : exists2 du, newton_dir lu eps meth 0 r u0 = Some du & no_step 2 0 0 du.
Proof.
have [EM CV _] := rf_update_view HC HE RU; set c := rc r in CV.
have RS : rst r = rf_stability part 2 0 0 d e Wx (qjb q) u by move: RU; rewrite /rf_update; case: canonicalize => // c0 [<-].
rewrite -RS none_unstable in EM.
have KU : kju c = nil.
  case E: (kju c) => [|j l] //; have : In j (kju c) by rewrite E; left.
  by move=> /(cv_unstable CV); rewrite EM.
have [Z1 Z2 _] := cv_sizes CV.
have KB : kjb c = nil by apply: Permutation_nil; rewrite -no_basic; exact: (cv_basic CV).
rewrite KB /= in Z1; have /esym/eqP := Z1; rewrite addn_eq0 => /andP [/eqP b0 /eqP b1].
have PJ : Permutation (kjs c) (0%N :: 1%N :: nil).
  have := cv_order CV; rewrite KU List.app_nil_r KB /= => ->; apply: Permutation_trans (Permutation_sym (cv_nonbasic CV)) _.
  have [H _ _ _] := HE nil; rewrite no_basic /= in H; exact: Permutation_sym.
have LJ : length (kjs c) = 2%N by rewrite (Permutation_length PJ).
have NJ : NoDup (kjs c) by apply: (Permutation_NoDup (Permutation_sym PJ)); repeat constructor; rewrite /=; intuition discriminate.
have IJ i : (i < 2)%N -> (ix (kjs c) i < 2)%N.
  move=> il; have : In (ix (kjs c) i) (kjs c) by apply: nth_In; rewrite LJ; apply/ssrnat.ltP.
  by move=> /(Permutation_in _ PJ) [<-|[<-|]].
have EX : rax r = rv_ax 0 0 e (rM r) c u by move: RU; rewrite /rf_update /c; case: canonicalize => // c' [<-].
have S0 : solve_canonical lu eps meth (canon_cmat 0 (rM r) c) (newton_rhs 0 r) = Some (CVec 0 0 0).
  rewrite Z2 b0 b1 /= add0n in LJ.
  apply: solve_dropped => //.
    apply/matrixP => i j.
    have il : (i < 2)%N by case: i => i il /=; move: il; rewrite b0 b1 LJ.
    have jl : (j < 2)%N by case: j => j jl /=; move: jl; rewrite b0 b1 LJ.
    rewrite /canon_cmat /= !mxE EM /= HX ?IJ //.
    case: (i =P j) => [->|N]; first by rewrite eqxx.
    case: eqP => // H; case: N; apply: val_inj => /=; move: H; rewrite /ix.
    have L2 : length (kjs c) = 2%N by rewrite (Permutation_length PJ).
    apply: (proj1 (NoDup_nth (kjs c) 0%N) NJ); rewrite L2; exact/ssrnat.ltP.
  move=> i; rewrite /newton_rhs /= !mxE -/c EX.
  have il : (i < 2)%N by case: i => i il /=; move: il; rewrite -/c b0 b1 LJ.
  rewrite (ax_stable _ _ _ _ _ (IJ i il)) ?KU //.
  rewrite /lagrangian !big_ord0 !addr0 normrN; exact: HG (IJ i il).
exists (master_result (MVec (rax r) (rap r) (fun _ => 0)) u0 (CVec 0 0 0 : cvec F (knbe c + knbi c) (knne c + knni c) 0)); first by rewrite /newton_dir S0.
split=> //.
move=> i i2; rewrite /master_result /= -/c KU /=.
case E: (posn i (kjs c)) => [k|].
  by rewrite /rawcol; case: insubP => [? _ _|//]; rewrite mxE.
have : In i (kjs c) by apply: (Permutation_in _ (Permutation_sym PJ)); case: i i2 {E} => [|[|]] // _; [left | right; left].
by move=> /In_ix [t tl Et]; move: E; rewrite -Et posn_ix.
Qed.
End Direction.

(** ** C80 without resolved right-hand sides: the Newton equations are regular - dx = -g - and the direction is zero. *)
Definition e80 (F : realFieldType) (g : F) : evals F := Evals (fun _ => g) (fun i j => (i == j)%:R) (fun _ _ => 0) (fun _ => 0) (fun _ => 0) (fun _ _ => 0) (fun _ _ => 0).
Definition q80 (F : realFieldType) : rwq F := RWQ (fun _ _ => 0) (fun _ _ => 0) (fun _ _ => 0) nil (0%N :: 1%N :: nil).
Theorem C80_refuted : forall (F : realFieldType) (lu : forall n, 'M[F]_n -> lufac F n) (eps : F) meth part,
  (forall n (A : 'M[F]_n), full_piv A (lu n A)) -> 0 < eps -> meth <> Rangespace -> partition_contract part ->
  exists (d : pdata F) (e : evals F) Wx Wp q u r,
  [/\ echelon_of 2 0 (0 + 0) e Wx Wp q, rf_update part 2 0 0 0 d e Wx Wp q u = Some r, length (qjb q) = 0%N,
      regular 2 0 0 e Wx Wp (fun j => In j (status_ju (rst r)))
    & forall u0 b c, exists2 du, newton_dir lu eps meth 0 r u0 = Some du &
        no_step 2 0 0 du /\ ~ newton_eqs 2 0 0 e Wx Wp (fun j => In j (status_ju (rst r))) (fun i => - lagrangian 0 0 e Wx u i) b c du].
Proof.
move=> F lu eps meth part LU e0 NR HC.
pose d := PData (fun _ => 0) (fun _ => 0) (fun _ => 1) : pdata F; pose e := e80 eps^-1; pose W := (fun _ _ => 0) : rawmx F.
pose u := MVec (fun _ => 0) (fun _ => 0) (fun _ => 0) : mvec F.
have HE : echelon_of 2 0 (0 + 0) e W W (q80 F) by move=> ju; split.
have [r RU] := rf_update_total d u HC HE.
have HX i j : (i < 2)%N -> (j < 2)%N -> eHxx e i j = (i == j)%:R by [].
have HG i : (i < 2)%N -> 1 <= eps * `|eg e i| by move=> _; exact: large_inv.
have JU := none_unstable HC HE RU.
exists d, e, W, W, (q80 F), u, r; split=> //.
  move=> du [_ N _ _]; split=> // i i2.
  have := N i i2; rewrite JU => /(_ (@List.in_nil _ i)).
  by rewrite !big_ord0 !addr0 /= !big_ord_recl big_ord0 addr0; case: i i2 => [|[|i]] //= _; rewrite !(mul1r, mul0r, addr0, add0r).
move=> u0 b c; have [du E D] := dropped_step LU NR HC HE RU HX HG u0.
exists du => //; split=> // -[_ N _ _]; have [D0 _ _] := D.
have := N 0%N isT; rewrite JU => /(_ (@List.in_nil _ 0%N)).
rewrite /lagrangian !big_ord0 !addr0 !big_ord_recl big_ord0 /= !D0 // !mulr0 !addr0 => /esym /eqP.
by rewrite oppr_eq0 invr_eq0 gt_eqF.
Qed.
Print Assumptions C80_refuted.

Lemma stuck_sq : let P := Psq in
  forall part lu srt th sigma nonfinite lus (eps : R) meth failed fuel o f1 f2 f3 oAx oAp obc w0 hist m M st u v tol,
    partition_contract part -> lu_correct lu -> sort_correct srt -> Rle 0 th -> (forall n (A : 'M[RF]_n), full_piv A (lus n A)) -> meth <> Rangespace ->
    (forall w, sized 2 0 0 (failed w).2) -> update_master f1 f2 f3 oAx oAp obc P = Some M ->
    starts_at st (u :: v :: nil) nil nil nil nil nil nil nil -> Rlt 0 eps -> Rle (Rinv eps) (Rabs u) -> Rle (Rinv eps) (Rabs v) ->
    o_tol o = XF tol -> Rle tol (Rinv eps) -> (o_maxiters o < fuel)%coq_nat ->
    exists r st', u_solve part (the_ech lu srt th sigma M) nonfinite (w_newton M lus eps meth failed) None None fuel o f1 f2 f3 oAx oAp obc w0 hist m P st = Some (r, st') /\
      r_succeeded r = false /\ r_iterations r = S (o_maxiters o) /\ starts_at st' (u :: v :: nil) nil nil nil nil nil nil nil.
Proof.
move=> P part lu srt th sigma nonfinite lus eps meth failed fuel o f1 f2 f3 oAx oAp obc w0 hist m M st u v tol.
move=> HC LC SC th0' LUS NR FS U ST e0 HU HV TOL T FU.
rewrite {}/P in U *; have th0 : (0 : RF) <= th by apply/R_leP.
have [CF [EO _]] := case_sq.
have OB : ordered_bounds Psq by split=> //; split; repeat constructor.
have BU : block_unspoiled f1 oAx (p_dims Psq) by right; left.
have HE : ech_contract M (the_ech lu srt th sigma M) by exact: C83_contract.
have EM : [/\ ms_nx M = 2%N, ms_np M = 0%N, ms_ny M = 0%N & ms_nz M = 0%N] by rewrite (Meq _ _ _ _ _ _ _ _ U).
have [E1 E2 E3 E4] := EM.
have LB : [/\ xlo (m_bounds M) = XNInf :: XNInf :: nil, xhi (m_bounds M) = XPInf :: XPInf :: nil, plo (m_bounds M) = nil & phi_ (m_bounds M) = nil] by rewrite (Meq _ _ _ _ _ _ _ _ U).
have [B1 B2 B3 B4] := LB.
set x := u :: v :: nil in ST *.
have IN z : length z = 2%N -> all_inside (XNInf :: XNInf :: nil) (XPInf :: XPInf :: nil) z by move=> L [|[|i]] Hi; rewrite L in Hi; try (exfalso; lia); split.
have AP : all_inside nil nil nil by move=> i /= Hi; exfalso; lia.
(* the step *)
have ZS w : (w_newton M lus eps meth failed (w_update part M (the_ech lu srt th sigma M) nonfinite w (fin x nil nil))).2 = fin (R0 :: R0 :: nil) nil nil.
  have [q [r [_ HQ RU R1' _]]] := w_update_fin nonfinite w x nil nil HC HE.
  rewrite /w_newton R1'; move: HQ RU; rewrite E1 E2 E3 E4 => HQ RU.
  have HX i j : (i < 2)%N -> (j < 2)%N -> eHxx (m_evals M x nil) i j = (i == j)%:R :> RF.
    by rewrite /m_evals /= /m_f (Meq _ _ _ _ _ _ _ _ U); case: i => [|[|i]] // _; case: j => [|[|j]].
  have HG i : (i < 2)%N -> 1 <= (eps : RF) * `|eg (m_evals M x nil) i : RF|.
    have G g : Rle (Rinv eps) (Rabs g) -> 1 <= (eps : RF) * `|(g : RF)|.
      move=> H; apply/R_leP; apply: (Rle_trans _ (Rmult eps (Rinv eps))); first by rewrite Rinv_r; [exact: Rle_refl | lra].
      by apply: Rmult_le_compat_l; [lra | exact: H].
    by rewrite /m_evals /= /m_f (Meq _ _ _ _ _ _ _ _ U); case: i => [|[|i]] // _ /=; exact: G.
  have [du -> [D _ _]] := dropped_step LUS NR HC HQ RU HX HG (fun _ => 0).
  by rewrite /= /vlist /= !D.
pose I (a b c : list R) := a = x /\ b = nil /\ c = nil.
have CL a b c : I a b c -> clampu (m_bounds M) (fin a b c) = fin a b c.
  by move=> [-> [-> ->]]; apply: clampu_id; rewrite ?B1 ?B2 ?B3 ?B4 //; exact: IN.
have NW a b c w : I a b c -> exists dx dp dy x' p' y',
  (w_newton M lus eps meth failed (w_update part M (the_ech lu srt th sigma M) nonfinite w (fin a b c))).2 = fin dx dp dy /\ I x' p' y' /\
  backtrack (o_fix o) (m_bounds M) (fin a b c) (UVec (map2 nadd (List.map XF a) (List.map XF dx)) (map2 nadd (List.map XF b) (List.map XF dp)) (map2 nadd (List.map XF c) (List.map XF dy))) = fin x' p' y'.
  move=> [-> [-> ->]]; exists (R0 :: R0 :: nil), nil, nil, x, nil, nil; split; first exact: ZS.
  split=> //; rewrite (@add_step _ _ x) //; last by case=> [|[|i]] /= Hi; [rewrite /x /=; lra | rewrite /x /=; lra | exfalso; lia].
  apply: (@backtrack_held (m_bounds M) (o_fix o) x x x nil nil nil nil nil); rewrite ?B1 ?B2 ?B3 ?B4 //; try exact: IN.
    by split=> //; split=> // i Hi; left; split=> //; apply: (IN x).
  by split=> //; split=> // i /= Hi; exfalso; lia.
have [r [w [S [[r1 r2] _]]]] := C48_terminates_partial _ _ _ (w_update part M (the_ech lu srt th sigma M) nonfinite) (fun w _ => w_err w) (w_newton M lus eps meth failed) None None (m_bounds M) o fuel w0 hist (fin x nil nil) FU.
have I0 : I x nil nil by [].
have [x' [p' [y' [Us [Ex [Ep Ey]]]]]] := solve_trapped _ _ _ _ _ _ _ CL NW _ _ _ _ _ _ _ _ I0 S.
rewrite Ep Ey Ex in Us.
have [st' [S' H]] := @lift_run part _ (the_ech lu srt th sigma M) nonfinite (w_newton M lus eps meth failed) None None fuel o f1 f2 f3 oAx oAp obc w0 hist m Psq M st
  x nil nil nil nil nil nil nil x nil nil nil nil nil nil nil r w U ST erefl erefl erefl erefl erefl erefl erefl S Us.
exists r, st'; split; first exact: S'.
have NS : r_succeeded r = false.
  case OK: (r_succeeded r) => //; exfalso.
  have NZ w1 : sized (nxbar (p_dims Psq)) (d_p (p_dims Psq)) (ny (p_dims Psq) + nz (p_dims Psq)) (w_newton M lus eps meth failed w1).2.
    rewrite /w_newton; case: (w_res w1) => [rr|]; last exact: FS.
    case: (newton_dir _ _ _ _ _ _) => [du|]; last exact: FS.
    rewrite /sized; cbn [ux up uw]; rewrite !List.map_length !List.seq_length E1 E2 E3 E4; by [].
  have WP : well_pivoted th M (x ++ nil ++ nil) nil.
    by rewrite /well_pivoted E3 E4; split; exact: resolved_by_empty.
  have SS : state_sized (p_dims Psq) st.
    by rewrite /state_sized; have [-> [-> [-> [_ [-> [-> [-> ->]]]]]]] := ST.
  have [UN _] := @C85_success_partial part lu srt th sigma nonfinite (w_newton M lus eps meth failed) None fuel o f1 f2 f3 oAx oAp obc w0 hist m Psq M st r st' tol
     x nil nil nil nil nil nil nil HC LC SC th0 CF OB BU U SS ltac:(by case: ST => _ [_ [_ [-> _]]]) NZ ltac:(by []) TOL S' OK H (licq_sq x) WP.
  by apply: (not_near_sq tol nil u v) UN; apply: Rle_trans T HU.
split=> //; split; last by [].
move: S NS r2; rewrite /solve; case: (loop _ _ _ _ _ _ _ _ _ _) => [s1|//] [<- _] /=.
by move/Nat.leb_gt; lia.
Qed.
(** ** C92 (and C81) with a positive threshold of the LU solver.  The function (x0^2 + x1^2)/2 has its minimum at zero; from
    every initial point with |x0| and |x1| at least 1/eps - for the eps = 2^-52 of the code, 4.5e15 - and for every number of
    iterations, solve fails and returns the initial point: all Newton equations are taken for linearly dependent, and
    the step is zero.  With eps = 0 one iteration would do (C92_equality_partial). *)
Theorem C92_threshold_refuted : exists P H c,
  (conforming P /\ equalities_only P /\ quadratic P H c /\ positive_along P H /\ independent_rows P /\ basic_uncancelled P) /\
  forall part lu srt th sigma nonfinite lus (eps : R) meth failed fuel o f1 f2 f3 oAx oAp obc w0 hist m M st u v tol,
    partition_contract part -> lu_correct lu -> sort_correct srt -> Rle 0 th -> (forall n (A : 'M[RF]_n), full_piv A (lus n A)) -> meth <> Rangespace ->
    (forall w, sized 2 0 0 (failed w).2) -> update_master f1 f2 f3 oAx oAp obc P = Some M ->
    starts_at st (u :: v :: nil) nil nil nil nil nil nil nil -> Rlt 0 eps -> Rle (Rinv eps) (Rabs u) -> Rle (Rinv eps) (Rabs v) ->
    o_tol o = XF tol -> Rle tol (Rinv eps) -> (o_maxiters o < fuel)%coq_nat ->
    exists r st', u_solve part (the_ech lu srt th sigma M) nonfinite (w_newton M lus eps meth failed) None None fuel o f1 f2 f3 oAx oAp obc w0 hist m P st = Some (r, st') /\
      r_succeeded r = false /\ r_iterations r = S (o_maxiters o) /\ starts_at st' (u :: v :: nil) nil nil nil nil nil nil nil.
Proof. by exists Psq, Hid, (fun _ => R0); split; [exact: case_sq | exact: stuck_sq]. Qed.
Print Assumptions C92_threshold_refuted.

(** For example eps = 2^-52, from (2^53, -2^53), with the default options. *)
Definition st92t : ustate xreal := UState (Dims 2 0 0 0 0 0 0) (XF (pow 2 53) :: XF (Ropp (pow 2 53)) :: nil) nil nil nil nil nil nil nil nil nil nil nil nil nil nil.
Example C92_threshold_case : exists P H c lu srt lus M r st',
  [/\ quadratic P H c /\ positive_along P H, lu_correct lu /\ sort_correct srt, update_master mem7 mem7 mem7 old7 old7 old7 P = Some M
    & u_solve libstdcxx_partition (the_ech lu srt 0 0 M) (fun a _ => (a, XNaN)) (w_newton M lus (Rinv (pow 2 52)) Nullspace (fun w => (w, fin (R0 :: R0 :: nil) nil nil))) None None 201
        (Options 200 (XF (Rinv (pow 10 8))) false) mem7 mem7 mem7 old7 old7 old7 w83 nil m0 P st92t = Some (r, st') /\ r_succeeded r = false].
Proof.
have [lu LC] := lu_correct_exists RF; have [srt SC] := sort_correct_exists RF; have [lus LUS] := lu_exists RF.
have [M U] : exists M, update_master mem7 mem7 mem7 old7 old7 old7 Psq = Some M by eexists; reflexivity.
have [_ [_ [QQ [PA _]]]] := case_sq.
have p0 : Rlt 0 (pow 2 52) by apply: pow_lt; lra.
have p1 : Rle 1 (pow 2 52) by apply: pow_R1_Rle; lra.
have p2 : Rle 1 (pow 10 8) by apply: pow_R1_Rle; lra.
have E : pow 2 53 = Rmult 2 (pow 2 52) by [].
have [|||||||||r [st' [S [NS _]]]] := @stuck_sq libstdcxx_partition lu srt 0 0 (fun a _ => (a, XNaN)) lus (Rinv (pow 2 52)) Nullspace (fun w => (w, fin (R0 :: R0 :: nil) nil nil)) 201
  (Options 200 (XF (Rinv (pow 10 8))) false) mem7 mem7 mem7 old7 old7 old7 w83 nil m0 M st92t (pow 2 53) (Ropp (pow 2 53)) (Rinv (pow 10 8)) (@libstdcxx_contract) LC SC (Rle_refl _) LUS _ _ U => //.
- exact: Rinv_0_lt_compat.
- by rewrite Rinv_inv Rabs_pos_eq E; lra.
- by rewrite Rinv_inv Rabs_Ropp Rabs_pos_eq E; lra.
- rewrite Rinv_inv; apply: Rle_trans p1; rewrite -Rinv_1; apply: Rinv_le_contravar; lra.
by exists Psq, Hid, (fun _ => R0), lu, srt, lus, M, r, st'.
Qed.
