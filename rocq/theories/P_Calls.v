(** Property theorems C89 and C90: the options handed to the user's functions. *)
From Coq Require Import List PeanoNat Permutation Reals Lra Lia.
From mathcomp Require Import all_ssreflect all_algebra.
From Verif Require Import Num Num_facts Index_model Num_rf R_rf LU_model Linear_model Canonical_model Canonical_spec ResErr_model Residual_model Residual_spec Sens_model.
From Verif Require Import EchelonO_model EchelonO_spec EchelonOEx_proofs Basis_spec.
From Verif Require Import Loop_model Loop_spec Wrapper_model Wrapper_spec Wrapper_proofs P_Wrapper End_model SensW_model P_End P_EchelonO Pivot_spec Pivot_proofs Calls_model Calls_spec Calls_proofs.
Set Implicit Arguments.
Unset Strict Implicit.
Unset Printing Implicit Defensive.
Import Order.TTheory GRing.Theory Num.Theory.
Local Open Scope ring_scope.
Local Notation "l ++ l'" := (List.app l l') : seq_scope.

Section Same.
Variables (F : ofuns) (part : partition_impl) (E : Type) (ech : E -> rawmx RF -> rawmx RF -> rawvec RF -> E * rwq RF).
Variables (nonfinite : E -> uvec xreal -> E * xreal).
Variables (f1 f2 f3 : nat -> R) (oAx oAp obc : mat R) (P : problem R xreal) (M : master R xreal).
Hypothesis U : update_master f1 f2 f3 oAx oAp obc P = Some M.
Let d := p_dims P.

Section One.
Variable o : evopts.
Hypothesis D : delivers P F o.
Hypotheses (X : e_ddx o = true) (Y : e_ddp o = (0 < d_p d)%N).
Let pp : e_ddp o = true \/ d_p d = 0%N.
Proof. by rewrite Y; case: (d_p d) => [|k]; [right | left]. Qed.

Lemma same_h x p : let a := m_h (master_with F d M o) x p in let b := m_h M x p in
  [/\ c_val a = c_val b, c_ddx a = c_ddx b, c_ddp a = c_ddp b & (e_ddc o = true \/ length (p_c P) = 0%N -> c_ddc a = c_ddc b)].
Proof.
have [_ [D1 [D2 _]]] := D; rewrite /m_h /ccall (Meq _ _ _ _ _ _ _ _ U); cbn [ms_f ms_h ms_v ms_c master_with].
by split; [apply: agree_val; eassumption | apply: agree_ddx; eassumption |
  apply: agree_ddp; eassumption | move=> H; apply: agree_ddc; eassumption].
Qed.
Lemma same_v x p : let a := m_v (master_with F d M o) x p in let b := m_v M x p in
  [/\ c_val a = c_val b, c_ddx a = c_ddx b, c_ddp a = c_ddp b & (e_ddc o = true \/ length (p_c P) = 0%N -> c_ddc a = c_ddc b)].
Proof.
have [_ [_ [_ D3]]] := D; rewrite /m_v /ccall (Meq _ _ _ _ _ _ _ _ U); cbn [ms_f ms_h ms_v ms_c master_with].
by split; [apply: agree_vval; eassumption | apply: agree_vddx; eassumption |
  apply: agree_vddp; eassumption | move=> H; apply: agree_vddc; eassumption].
Qed.
Lemma same_f x p : let a := m_f (master_with F d M o) x p in let b := m_f M x p in
  [/\ o_fx a = o_fx b, o_fxx a = o_fxx b, o_fxp a = o_fxp b & (e_ddc o = true \/ length (p_c P) = 0%N -> o_fxc a = o_fxc b)].
Proof.
have [D0 _] := D; rewrite /m_f /ocall (Meq _ _ _ _ _ _ _ _ U); cbn [ms_f ms_h ms_v ms_c master_with].
by split; [apply: agree_fx; eassumption | apply: agree_fxx; eassumption |
  apply: agree_fxp; eassumption | move=> H; apply: agree_fxc; eassumption].
Qed.

Lemma same_update w u : w_update part (master_with F d M o) ech nonfinite w u = w_update part M ech nonfinite w u.
Proof.
rewrite /w_update; case: (finite (ux u)) => [x|//]; case: (finite (up u)) => [p|//]; case: (finite (uw u)) => [y|//].
have -> : m_Wx (master_with F d M o) x p = m_Wx M x p.
  by rewrite /m_Wx; have [_ -> _ _] := same_h x p.
have -> : m_Wp (master_with F d M o) x p = m_Wp M x p.
  by rewrite /m_Wp; have [_ _ -> _] := same_h x p.
have -> : m_evals (master_with F d M o) x p = m_evals M x p.
  by rewrite /m_evals; have [-> _ _ _] := same_h x p; have [-> -> -> _] := same_v x p; have [-> -> -> _] := same_f x p.
by [].
Qed.

Lemma same_sens lu eps r0 s0 rr x p : e_ddc o = true \/ length (p_c P) = 0%N ->
  m_sens (master_with F d M o) lu eps r0 s0 rr x p = m_sens M lu eps r0 s0 rr x p.
Proof.
move=> H; rewrite /m_sens.
have -> : m_column (master_with F d M o) lu eps r0 s0 rr x p = m_column M lu eps r0 s0 rr x p; last by [].
rewrite /m_column /m_cderivs.
by have [_ _ _ ->] := same_h x p => //; have [_ _ _ ->] := same_v x p => //; have [_ _ _ ->] := same_f x p.
Qed.
End One.
End Same.

Lemma solve_ext (T : Type) (N : Num T) (W : Type) (f g : W -> uvec T -> W) ferror newton phi check fuel B o w hist u :
  (forall w u, f w u = g w u) -> solve W f ferror newton phi check fuel B o w hist u = solve W g ferror newton phi check fuel B o w hist u.
Proof.
by move=> H; have -> : f = g by apply: FunctionalExtensionality.functional_extensionality => a;
  apply: FunctionalExtensionality.functional_extensionality.
Qed.

(** ** C89.  Functions that look at the options they are given: solve asks for the
    derivatives with respect to x, and those with respect to p if there are any p, never for those with
    respect to c.  If the functions deliver what is asked for, the calculation is that of functions
    that always deliver everything; what they leave out is not used, and neither is the value of the
    objective function. *)
Theorem C89_solve : forall F part E ech nonfinite newton phi check fuel o f1 f2 f3 oAx oAp obc (w : world E) hist m P st,
  (forall ib, delivers P F (EvOpts true (0 < d_p (p_dims P))%N false ib)) ->
  uo_solve F part ech nonfinite newton phi check fuel o f1 f2 f3 oAx oAp obc w hist m P st =
  u_solve part ech nonfinite newton phi check fuel o f1 f2 f3 oAx oAp obc w hist m P st.
Proof.
move=> F part E ech nonfinite newton phi check fuel o f1 f2 f3 oAx oAp obc w hist m P st D.
rewrite /uo_solve /u_solve /m_solve.
case EM: (update_master f1 f2 f3 oAx oAp obc P) => [M|//].
have -> // : forall u, solve (world E) (wo_update F (p_dims P) part M ech nonfinite EvUpdate) (fun w _ => w_err w) newton phi check fuel (m_bounds M) o w hist u =
  solve (world E) (w_update part M ech nonfinite) (fun w _ => w_err w) newton phi check fuel (m_bounds M) o w hist u.
move=> u; apply: solve_ext => w1 u1.
have NP : ms_np M = d_p (p_dims P) by rewrite (Meq _ _ _ _ _ _ _ _ EM).
by apply: (same_update _ _ _ EM) => //; rewrite /options_at /ev_options /= NP ?andbF //; exact: D.
Qed.
Print Assumptions C89_solve.

(** With sensitivities there is one more evaluation, at the point returned, that asks for the derivatives
    with respect to c too if there are any c. *)
Theorem C89_sens : forall F lu eps r0 s0 part E ech nonfinite newton phi check fuel o f1 f2 f3 oAx oAp obc (w : world E) hist m P st,
  (forall ib, delivers P F (EvOpts true (0 < d_p (p_dims P))%N false ib)) ->
  (forall ib, delivers P F (EvOpts true (0 < d_p (p_dims P))%N (0 < length (p_c P))%N ib)) ->
  uo_solve_sens F lu eps r0 s0 part ech nonfinite newton phi check fuel o f1 f2 f3 oAx oAp obc w hist m P st =
  u_solve_sens lu eps r0 s0 part ech nonfinite newton phi check fuel o f1 f2 f3 oAx oAp obc w hist m P st.
Proof.
move=> F lu eps r0 s0 part E ech nonfinite newton phi check fuel o f1 f2 f3 oAx oAp obc w hist m P st D D'.
rewrite /uo_solve_sens /u_solve_sens /m_solve.
case EM: (update_master f1 f2 f3 oAx oAp obc P) => [M|//]; case: ifP => // _.
have NP : ms_np M = d_p (p_dims P) by rewrite (Meq _ _ _ _ _ _ _ _ EM).
have NC : ms_c M = p_c P by rewrite (Meq _ _ _ _ _ _ _ _ EM).
rewrite (@solve_ext _ _ _ (wo_update F (p_dims P) part M ech nonfinite EvUpdate) (w_update part M ech nonfinite)); last first.
  by move=> w1 u1; apply: (same_update _ _ _ EM) => //; rewrite /options_at /ev_options /= NP ?andbF //; exact: D.
case: (solve _ _ _ _ _ _ _ _ _ _ _ _) => [[r s]|//].
have DD : delivers P F (options_at M EvAll (s_w s)) by rewrite /options_at /ev_options /= NP NC; exact: D'.
have -> : wo_update F (p_dims P) part M ech nonfinite EvAll (s_w s) (s_u s) = w_update part M ech nonfinite (s_w s) (s_u s).
  by apply: (same_update _ _ _ EM) => //; rewrite /options_at /ev_options /= NP.
case: (w_res _) => [rr|//]; case: (finite (ux (s_u s))) => [x|//]; case: (finite (up (s_u s))) => [p|//].
rewrite (same_sens EM DD) //=.
  by rewrite NP.
by rewrite NC; case: (length _) => [|k]; [right | left].
Qed.
Print Assumptions C89_sens.

(** min (x - c)^2 / 2 with a function that leaves out what it is not asked for, and never
    computes the value *)
Definition P89 : problem R xreal := Problem (Dims 1 0 0 0 0 0 1) None
  (Some (fun x _ c _ => ORes R0 (fun _ => Rminus (at_ x 0) (at_ c 0)) (fun _ _ => R1) mzeros (fun _ _ => IZR (-1)) false false true))
  (Some cfn0) (Some cfn0) (Some cfn0) mzeros mzeros mzeros mzeros nil nil (XNInf :: nil) (XPInf :: nil) nil nil (IZR 2 :: nil) mzeros mzeros.
Definition lazy : ofuns := OFuns (fun o x _ c _ => ORes (IZR 77) (fun _ => Rminus (at_ x 0) (at_ c 0)) (fun _ _ => if e_ddx o then R1 else IZR 88)
    mzeros (fun _ _ => if e_ddc o then IZR (-1) else IZR 99) false false true) (fun _ => cfn0) (fun _ => cfn0) (fun _ => cfn0).
Example C89_case : (forall ib, delivers P89 lazy (EvOpts true (0 < d_p (p_dims P89))%N false ib)) /\
  (forall ib, delivers P89 lazy (EvOpts true (0 < d_p (p_dims P89))%N (0 < length (p_c P89))%N ib)) /\
  o_fxc (ovalue (of_f lazy (EvOpts true false false nil)) (R0 :: nil) nil (R0 :: nil)) 0%N 0%N <> o_fxc (ovalue (uf P89) (R0 :: nil) nil (R0 :: nil)) 0%N 0%N.
Proof.
split; [|split].
- by move=> ib; split=> [x p c|]; [do !split=> //=; case=> // | split; [|split] => x p c; repeat split].
- by move=> ib; split=> [x p c|]; [do !split=> //=; case=> // | split; [|split] => x p c; repeat split].
- by rewrite /=; lra.
Qed.

Lemma ib_of part lu srt th sigma M nonfinite w k (x p y : list R) :
  e_ib (options_at M k (w_update part M (the_ech lu srt th sigma M) nonfinite w (UVec (List.map XF x) (List.map XF p) (List.map XF y)))) =
  qjb (the_ech lu srt th sigma M (w_e w) (m_Wx M x p) (m_Wp M x p) (rf_weight (m_data M x) (vec x))).2.
Proof.
have FIN l : finite (List.map XF l) = Some l by elim: l => [//|a l IH] /=; rewrite IH.
rewrite /options_at /ev_options; case: (asked k) => [[a b] c]; cbn [e_ib]; rewrite /w_update; cbn [ux up uw]; rewrite !FIN.
case: (the_ech _ _ _ _ _ _ _ _ _) => e q' /=.
by case: (rf_update _ _ _ _ _ _ _ _ _ _ _).
Qed.

(** ** C90.  The list of basic variables given to the functions: after an evaluation at the
    finite point (x, p) the next one is given variables that are different from each other, as
    many as the constraint matrix W(x, p) of that point has rank, and the columns of W(x, p) they stand for
    are independent.  Missing: that these are basic variables of the point at which the functions are
    evaluated, and that they are among the user's x; see below for both. *)
Theorem C90_previous_partial : forall part lu srt th sigma M nonfinite w k (x p y : list R),
  lu_correct lu -> sort_correct srt -> 0 <= th ->
  let ib := e_ib (options_at M k (w_update part M (the_ech lu srt th sigma M) nonfinite w (UVec (List.map XF x) (List.map XF p) (List.map XF y)))) in
  let W : rawmx RF := m_Wx M x p in
  NoDup ib /\ (forall j, In j ib -> (j < ms_nx M)%coq_nat) /\ length ib = \rank (mxof (ms_ny M + ms_nz M) (ms_nx M) W) /\
  exists V : rawmx RF, forall i j, (i < length ib)%N -> (j < length ib)%N -> \sum_(l < ms_ny M + ms_nz M) V i l * W l (List.nth j ib 0%N) = (i == j)%:R.
Proof.
move=> part lu srt th sigma M nonfinite w k x p y LC SC th0 ib W.
set wt := rf_weight (m_data M x) (vec x).
pose q := (the_ech lu srt th sigma M (w_e w) (m_Wx M x p) (m_Wp M x p) wt).2.
have -> : ib = qjb q by exact: ib_of.
have [[PQ I1 _ _] LR _ _] := @C82_echelonizer RF lu srt th sigma (ms_ny M) (ms_nx M) (ms_nz M) (ms_np M) (fun i j => mget (ms_Ax M) i j) (w_e w) (m_Wx M x p) (m_Wp M x p) wt
  (rf_master (m_evals M x p) (m_Wx M x p) (m_Wp M x p) nil) LC SC th0 (@top_rows M x p) (erefl _) (erefl _).
have ND : NoDup (qjb q ++ qjn q) by apply: (Permutation_NoDup PQ); exact: seq_NoDup.
split; [|split; [|split]].
- by move: ND; elim: (qjb q) => [|a l IH] /=; [constructor | move=> H; inversion H; subst; constructor; [move=> Ha; apply: H2; apply/in_app_iff; left | exact: IH]].
- move=> j jq; have : In j (indices (ms_nx M)) by apply: (Permutation_in _ (Permutation_sym PQ)); apply/in_app_iff; left.
  by move/in_seq; lia.
- exact: LR.
- by exists (qR q).
Qed.
Print Assumptions C90_previous_partial.

(** One equation with the coefficients (1, 1): if only variable a is off its bounds, it is the basic variable. *)
Lemma basic_one (lu : lu_impl RF) (srt : sort_impl RF) (th sigma : RF) np h (A W Wp : rawmx RF) (d : pdata RF) (x : rawvec RF) (a : nat) :
  lu_correct lu -> sort_correct srt -> 0 <= th -> th < 1 -> (a < 2)%N -> (forall j, (j < 2)%N -> W 0%N j = 1) -> (forall i j, (i < 1)%N -> (j < 2)%N -> W i j = A i j) ->
  off_bounds x (dxl d) (dxu d) a -> (forall j, (j < 2)%N -> j <> a -> ~ off_bounds x (dxl d) (dxu d) j) ->
  qjb (o_ech lu srt th sigma 1 2 0 np A h W Wp (rf_weight d x)).2 = a :: nil.
Proof.
move=> LC SC th0 th1 a2 W1 WA OB NB.
have RW : resolved_by th 1 2 W by apply: resolved_by_row => // j j2; right; rewrite W1 // normr1.
have RA : resolved_by th 1 2 A by apply: resolved_by_row => // j j2; right; rewrite -WA // W1 // normr1.
pose s : 'I_1 -> 'I_2 := fun _ => Ordinal a2.
have SP : spanning (mxof (1 + 0) 2 W) s.
  move=> v; exists (const_mx (v 0 0)); apply/colP => i.
  by rewrite mxE big_ord_recl big_ord0 !mxE [i]ord1 /= W1 // mul1r addr0.
have OA : forall b, off_bounds x (dxl d) (dxu d) (s b) /\ 0 <= `|x (s b)| by move=> b; split=> //; exact: normr_ge0.
set q := qjb _.
have [[PQ _ _ _] LQ _ _] := @C82_echelonizer _ lu srt th sigma 1 2 0 np A h W Wp (rf_weight d x) (MMat W W W W W Wp nil) LC SC th0 WA (erefl _) (erefl _).
have BQ j : In j q -> off_bounds x (dxl d) (dxu d) j /\ 0 <= `|x j| := @C82_basis_partial _ lu srt th sigma 1 2 0 np A h W Wp d x LC SC th0 RA RW WA 0 1 s (lexx _) SP OA j.
have RK : \rank (mxof (1 + 0) 2 W) = 1%N.
  apply/eqP; rewrite eqn_leq rank_leq_row lt0n mxrank_eq0; apply/negP => /eqP/matrixP/(_ 0 0).
  by rewrite !mxE W1 // => /eqP; rewrite oner_eq0.
rewrite RK -/q in LQ.
have {}PQ j : In j q -> (j < 2)%N.
  move=> jq; have : In j (indices 2) by apply: (Permutation_in _ (Permutation_sym PQ)); apply/in_app_iff; left.
  by case=> [<-|[<-|[]]].
case: q LQ PQ BQ => [//|j [|//]] _ PQ BQ; congr cons.
have [H _] := BQ j (or_introl erefl).
by case: (PeanoNat.Nat.eq_dec j a) => // ja; case: (NB j (PQ j (or_introl erefl)) ja).
Qed.

(** An inequality x >= -3 (its slack is the second variable of the master problem) at x = 0, a
    lower bound: the functions of a problem with one variable x are told that variable 1, the slack, is basic. *)
Definition P90 : problem R xreal := Problem (Dims 1 0 0 1 0 0 0) None (Some fx1) (Some cfn0) (Some cfn0) (Some cfn0)
  mzeros mzeros (fun _ _ => R1) mzeros nil (IZR (-3) :: nil) (XF R0 :: nil) (XPInf :: nil) nil nil nil mzeros mzeros.
Theorem C90_slack_refuted : exists M, update_master mem7 mem7 mem7 old7 old7 old7 P90 = Some M /\
  forall lu srt th part sigma nonfinite w k y, lu_correct lu -> sort_correct srt -> Rle 0 th -> Rlt th 1 -> e_ib (options_at M k (w_update part M (the_ech lu srt th sigma M) nonfinite w
    (UVec (XF R0 :: XF (IZR (-3)) :: nil) nil (XF y :: nil)))) = 1%N :: nil /\ d_x (p_dims P90) = 1%N.
Proof.
have [M U] : exists M, update_master mem7 mem7 mem7 old7 old7 old7 P90 = Some M by eexists; reflexivity.
exists M; split=> // lu srt th part sigma nonfinite w k y LC SC /R_leP th0 /R_ltP th1; split=> //.
set x := R0 :: IZR (-3) :: nil.
have [E1 [E2 [E3 E4]]] : ms_nx M = 2%N /\ ms_np M = 0%N /\ ms_ny M = 1%N /\ ms_nz M = 0%N by rewrite (Meq _ _ _ _ _ _ _ _ U).
rewrite -[XF R0 :: _]/(List.map XF x) -[nil in UVec _ nil _]/(List.map XF nil) -[XF y :: nil]/(List.map XF (y :: nil)) ib_of /the_ech E1 E2 E3 E4.
apply: basic_one => //.
- by case=> [|[|//]] _; rewrite /m_Wx E3 (Meq _ _ _ _ _ _ _ _ U).
- by move=> i j i1 j2; rewrite /m_Wx E3 i1.
- by split; rewrite /m_data (Meq _ _ _ _ _ _ _ _ U) /= /vec /=; lra.
- by case=> [|[|//]] _ // _ []; rewrite /m_data (Meq _ _ _ _ _ _ _ _ U).
Qed.
Print Assumptions C90_slack_refuted.

(** x0 + x1 = 1, x >= 0: on the way from (1, 0) to (0, 1) the functions are told at (0, 1) that x0 is the
    basic variable, although it is on its bound there and the basic variable is x1, which they are
    told when they are evaluated after that. *)
Definition P90b : problem R xreal := Problem (Dims 2 0 1 0 0 0 0) None (Some fx1) (Some cfn0) (Some cfn0) (Some cfn0)
  (fun _ _ => R1) mzeros mzeros mzeros (R1 :: nil) nil (XF R0 :: XF R0 :: nil) (XPInf :: XPInf :: nil) nil nil nil mzeros mzeros.
Theorem C90_stale_refuted : exists M, update_master mem7 mem7 mem7 old7 old7 old7 P90b = Some M /\
  forall lu srt th part sigma nonfinite w k y, lu_correct lu -> sort_correct srt -> Rle 0 th -> Rlt th 1 -> let update w x := w_update part M (the_ech lu srt th sigma M) nonfinite w (UVec x nil (XF y :: nil)) in
    let w1 := update w (XF R1 :: XF R0 :: nil) in let w2 := update w1 (XF R0 :: XF R1 :: nil) in
    e_ib (options_at M k w1) = 0%N :: nil /\ e_ib (options_at M k w2) = 1%N :: nil.
Proof.
have [M U] : exists M, update_master mem7 mem7 mem7 old7 old7 old7 P90b = Some M by eexists; reflexivity.
exists M; split=> // lu srt th part sigma nonfinite w k y LC SC /R_leP th0 /R_ltP th1 update w1 w2.
have [E1 [E2 [E3 E4]]] : ms_nx M = 2%N /\ ms_np M = 0%N /\ ms_ny M = 1%N /\ ms_nz M = 0%N by rewrite (Meq _ _ _ _ _ _ _ _ U).
have WX i j l : (i < 1)%N -> (j < 2)%N -> m_Wx M l nil i j = mget (ms_Ax M) i j by move=> i1 j2; rewrite /m_Wx E3 i1.
have W1 j l : (j < 2)%N -> m_Wx M l nil 0%N j = 1 by case: j => [|[|//]] _; rewrite /m_Wx E3 (Meq _ _ _ _ _ _ _ _ U).
split.
- rewrite /w1 /update -[XF R1 :: _]/(List.map XF (R1 :: R0 :: nil)) -[nil in UVec _ nil _]/(List.map XF nil) -[XF y :: nil]/(List.map XF (y :: nil)) ib_of /the_ech E1 E2 E3 E4.
  apply: basic_one => //.
  + by move=> j; exact: W1.
  + by move=> i j; exact: WX.
  + by split; rewrite /m_data (Meq _ _ _ _ _ _ _ _ U) /= /vec /=; lra.
  + by case=> [|[|//]] _ // _ []; rewrite /m_data (Meq _ _ _ _ _ _ _ _ U).
- rewrite /w2 {1}/update -[XF R0 :: _]/(List.map XF (R0 :: R1 :: nil)) -[nil in UVec _ nil _]/(List.map XF nil) -[XF y :: nil]/(List.map XF (y :: nil)) ib_of /the_ech E1 E2 E3 E4.
  apply: basic_one => //.
  + by move=> j; exact: W1.
  + by move=> i j; exact: WX.
  + by split; rewrite /m_data (Meq _ _ _ _ _ _ _ _ U) /= /vec /=; lra.
  + by case=> [|[|//]] _ // _ []; rewrite /m_data (Meq _ _ _ _ _ _ _ _ U).
Qed.
Print Assumptions C90_stale_refuted.
