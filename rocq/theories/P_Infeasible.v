(** Property theorems C103: problems without feasible points. *)
From Coq Require Import List PeanoNat Permutation Reals Lra Lia.
From mathcomp Require Import all_ssreflect all_fingroup all_algebra.
From Verif Require Import Num Num_facts Index_model Index_spec Index_proofs Num_rf R_rf Echelon_model Echelon_spec LU_model LU_spec Linear_model Linear_spec Linear_proofs P_Linear Canonical_model Canonical_spec Canonical_proofs P_Canonical.
From Verif Require Import ResErr_model Residual_model Residual_spec Residual_proofs P_Residual Accept_proofs EchelonO_model EchelonO_spec EchelonO_proofs EchelonOEx_proofs Stay_proofs.
From Verif Require Import Loop_model Loop_spec Loop_proofs P_Loop Wrapper_model Wrapper_spec Wrapper_proofs P_Wrapper End_model End_spec Near_proofs End_proofs.
From Verif Require Import Newton_model Newton_spec Newton_proofs Exact_spec Exact_proofs P_Newton P_End P_EchelonO Status_spec P_Status Dropped_proofs.
Set Implicit Arguments.
Unset Strict Implicit.
Unset Printing Implicit Defensive.
Import Order.TTheory GRing.Theory Num.Theory.
Local Open Scope ring_scope.
Local Notation "l ++ l'" := (List.app l l') : seq_scope.

(** No values of the variables and parameters meet the constraints and bounds. *)
Definition infeasible (P : problem R xreal) : Prop :=
  forall x p, length x = d_x (p_dims P) -> length p = d_p (p_dims P) -> ~ user_feasible P x p.

(** ** min x^2/2 with bounds lo, hi and rows 0 x = b_i *)
Definition f103 : ofun R := fun x p c r =>
  ORes (Rdiv (pow (at_ x 0) 2) 2) (fun _ => at_ x 0) (fun _ _ => R1) (o_fxp r) (o_fxc r) true false true.
Definition P103 (b : list R) (lo hi : xreal) : problem R xreal := Problem (Dims 1 0 (length b) 0 0 0 0) None (Some f103) (Some cfn0) (Some cfn0) (Some cfn0)
  mzeros mzeros mzeros mzeros b nil (lo :: nil) (hi :: nil) nil nil nil mzeros mzeros.

(** the Newton direction when the derivatives of all constraints vanish *)
Section Direction.
Variables (F : realFieldType) (lu : forall n, 'M[F]_n -> lufac F n) (meth : lsmethod) (part : partition_impl).
Hypothesis LU : forall n (A : 'M[F]_n), full_piv A (lu A).
Hypothesis NR : meth <> Rangespace.
Hypothesis HC : partition_contract part.
Variables (ny : nat) (d : pdata F) (e : evals F) (Wx Wp : rawmx F) (q : rwq F) (u : mvec F) (r : residual F).
Hypothesis HE : echelon_of 1 0 (ny + 0) e Wx Wp q.
Hypothesis RU : rf_update part 1 0 ny 0 d e Wx Wp q u = Some r.
Hypothesis HX : eHxx e 0%N 0%N = 1.
Hypothesis W0 : forall l, (l < ny + 0)%N -> Wx l 0%N = 0.

Lemma no_basic103 : qjb q = nil.
Proof.
have [PQ H _ _] := HE nil; case E: (qjb q) H PQ => [|j l] // /(_ 0%N 0%N isT isT) H PQ.
have j0 : j = 0%N.
  by have := Permutation_in j (Permutation_sym PQ); rewrite /= => /(_ (or_introl erefl)) [|[]].
by move: H; rewrite /= /ix /= j0 big1 ?[_ == _]eqxx; [move=> /eqP; rewrite eq_sym oner_eq0 | move=> i _; rewrite W0 ?mulr0].
Qed.
Let EMK : rM r = rf_master e Wx Wp nil /\ kju (rc r) = nil /\ kjb (rc r) = nil /\ kjs (rc r) = 0%N :: nil.
Proof.
have [EM CV _] := rf_update_view HC HE RU.
have S0 : status_ju (rf_stability part 1 ny 0 d e Wx (qjb q) u) = nil by rewrite /rf_stability no_basic103; apply: stability_empty_ju.
rewrite S0 in EM; split=> //.
have KU : kju (rc r) = nil.
  case E: (kju (rc r)) => [|j l] //; have : In j (kju (rc r)) by rewrite E; left.
  by move=> /(cv_unstable CV); rewrite EM.
have KB : kjb (rc r) = nil by apply: Permutation_nil; rewrite -no_basic103; exact: (cv_basic CV).
do 2![split=> //].
have := cv_order CV; rewrite KU List.app_nil_r KB /= => ->.
have [H _ _ _] := HE nil; rewrite no_basic103 /= in H.
apply: Permutation_length_1_inv; apply: Permutation_trans _ (cv_nonbasic CV); exact: H.
Qed.
Lemma direction103 : exists2 du, newton_dir lu 0 meth 0 r (fun _ => 0) = Some du & mx du 0%N = - eg e 0%N /\ forall l, mw du l = 0.
Proof.
have [EM [KU [KB KS]]] := EMK; have [_ CV _] := rf_update_view HC HE RU.
have [Z1 Z2 _] := cv_sizes CV; rewrite KB KS /= in Z1 Z2.
have EQ a u0 v : canonical_eqs (canon_cmat 0 (rM r) (rc r)) (canon_rhs 0 (ny + 0) (rc r) a) v -> mx (master_result a u0 v) 0%N = mx a 0%N.
  move=> /(C39_master_equations u0 CV) [E1 _ _ _].
  have := E1 0%N; rewrite KS => /(_ (or_introl erefl)); rewrite EM big_seq1 big_ord0 /= HX mul1r addr0 => <-.
  by rewrite big1 ?addr0 // => l _; rewrite W0 ?mul0r.
have X1 a (v : cvec F (knbe (rc r) + knbi (rc r)) (knne (rc r) + knni (rc r)) 0) k : mx (master_result a (fun _ => 0) v) 0%N = vxs v k 0.
  have := res_s CV a (fun _ => 0) v k; rewrite KS.
  suff -> : nat_of_ord k = 0%N by [].
  by case: k => k kl /=; move: kl; rewrite -Z1 -[(0 + (knne (rc r) + knni (rc r)))%N]/((0%N + _)%N) ; move: Z2; rewrite -Z1 add0n => <-; case: k.
have N : nonsingular (canon_cmat 0 (rM r) (rc r)).
  move=> v Ev.
  pose a : mvec F := MVec (fun _ => 0) (fun _ => 0) (fun _ => 0).
  have Ea : canon_rhs 0 (ny + 0) (rc r) a = Linear_spec.czero F _ _ _.
    rewrite /canon_rhs /Linear_spec.czero; congr CVec; apply/colP => i; rewrite !mxE //.
    by rewrite big1 // => l _; rewrite mulr0.
  rewrite -Ea in Ev.
  have V0 k : vxs v k 0 = 0 by rewrite -(X1 a v k) (EQ _ _ _ Ev).
  case: v {Ev} V0 => xs p w /= V0; rewrite /Linear_spec.czero; congr CVec.
  - by apply/colP => i; rewrite V0 mxE.
  - by apply: empty_mx; left.
  - by apply: empty_mx; left.
have [v Ev Hv] : exists2 v, solve_canonical lu 0 meth (canon_cmat 0 (rM r) (rc r)) (newton_rhs 0 r) = Some v & canonical_eqs (canon_cmat 0 (rM r) (rc r)) (newton_rhs 0 r) v.
  rewrite /solve_canonical; case: meth NR => // _.
  - by apply: C36_fullspace_partial => // k k0; rewrite mul0r normr_gt0.
  - by apply: C37_nullspace_partial => //; [apply: C37_reduced | move=> k k0; rewrite mul0r normr_gt0].
pose a : mvec F := MVec (rax r) (rap r) (fun _ => 0).
exists (master_result a (fun _ => 0) v); first by rewrite /newton_dir Ev.
have Ea : canon_rhs 0 (ny + 0) (rc r) a = newton_rhs 0 r.
  by rewrite /canon_rhs /newton_rhs; congr CVec; apply: empty_mx; left.
rewrite -Ea in Hv; split; last by move=> l; rewrite /master_result /= big1 // => i; case: i => i il; exfalso; move: il; rewrite -Z1.
rewrite (EQ _ _ _ Hv) /=.
have -> : rax r = rv_ax ny 0 e (rM r) (rc r) u by move: RU; rewrite /rf_update; case: canonicalize => // c' [<-].
rewrite (ax_stable _ _ _ _ _ (isT : (0 < 1)%N)) ?KU // EM /lagrangian /= big1 ?addr0 // => l _.
by rewrite W0 ?mul0r.
Qed.
End Direction.

Section Run103.
Variables (b : list R) (lo hi : xreal) (f1 f2 f3 : nat -> R) (oAx oAp obc : mat R) (M : master R xreal).
Hypothesis U : update_master f1 f2 f3 oAx oAp obc (P103 b lo hi) = Some M.
Variables (part : partition_impl) (E : Type) (ech : E -> rawmx RF -> rawmx RF -> rawvec RF -> E * rwq RF) (nonfinite : E -> uvec xreal -> E * xreal).
Hypothesis HC : partition_contract part.
Hypothesis HE : ech_contract M ech.

Lemma EM103 : [/\ ms_nx M = 1%N, ms_np M = 0%N, ms_ny M = length b & ms_nz M = 0%N].
Proof. by rewrite (Meq _ _ _ _ _ _ _ _ U); split=> //; exact: Nat.add_0_r. Qed.
Lemma W103 z p l : (l < length b + 0)%N -> m_Wx M z p l 0%N = 0.
Proof.
have [_ _ E3 _] := EM103; rewrite addn0 => ll; rewrite /m_Wx E3 ll.
have BU : forall i j, (i < d_be (p_dims (P103 b lo hi)))%coq_nat ->
  (d_x (p_dims (P103 b lo hi)) <= j)%coq_nat /\ (j < Nat.add (d_x (p_dims (P103 b lo hi))) (d_bg (p_dims (P103 b lo hi))))%coq_nat ->
  mget (mresize f1 oAx (ny (p_dims (P103 b lo hi))) (nxbar (p_dims (P103 b lo hi)))) i j = R0.
  by move=> i j _ /= H; exfalso; lia.
have NY : (l < ny (p_dims (P103 b lo hi)))%coq_nat by rewrite /ny /= Nat.add_0_r; exact/ssrnat.ltP.
have NX : (0 < nxbar (p_dims (P103 b lo hi)))%coq_nat by rewrite /nxbar /=; lia.
rewrite (Ax_doc _ _ _ _ _ _ _ _ U BU (R0 :: nil) nil nil erefl erefl erefl l 0%N NY NX) /documented_Ax /=.
by case: Nat.ltb_spec => // H; exfalso; move/ssrnat.ltP: ll; lia.
Qed.

(** the Newton direction leads from x to 0 and keeps the multipliers *)
Lemma newton103 lus meth failed (v : world E) a y : length y = length b ->
  (forall n (A : 'M[RF]_n), full_piv A (lus n A)) -> meth <> Rangespace ->
  exists dx dy, (w_newton M lus 0 meth failed (w_update part M ech nonfinite v (fin (a :: nil) nil y))).2 = fin (dx :: nil) nil dy /\
    Rplus a dx = R0 /\ length dy = length y /\ forall i, List.nth i dy R0 = R0.
Proof.
move=> Ly LUS NR; have [E1 E2 E3 E4] := EM103; set x := a :: nil.
have [q [r [_ HQ RU R1' _]]] := w_update_fin nonfinite v x nil y HC HE.
rewrite /w_newton R1'; move: HQ RU; rewrite E1 E2 E3 E4 => HQ RU.
have HX : eHxx (m_evals M x nil) 0%N 0%N = 1 by rewrite /= /m_f (Meq _ _ _ _ _ _ _ _ U).
have [du -> [D1 D2]] := direction103 LUS NR HC HQ RU HX (@W103 x nil).
exists (mx du 0%N), (vlist (length b + 0) (mw du)); split=> //.
rewrite D1 /= /m_f (Meq _ _ _ _ _ _ _ _ U) /= /at_ /= ?R_oppE length_vlist addn0 Ly; split; first by lra.
split=> // i; case: (ssrnat.ltnP i (length b)) => [H|H]; last by apply: nth_overflow; rewrite length_vlist; exact/ssrnat.leP.
by rewrite nth_vlist ?D2.
Qed.

(** the error at x = 0 *)
Lemma err103 v y tol : Rlt 0 tol -> nltb (w_err (w_update part M ech nonfinite v (fin (R0 :: nil) nil y))) (XF tol) = true.
Proof.
move=> t0; have [E1 E2 E3 E4] := EM103; set x := R0 :: nil.
have [q [r [_ HQ RU _ ->]]] := w_update_fin nonfinite v x nil y HC HE.
rewrite /= /rltb; case: Rlt_dec => // -[]; apply/R_ltP; move: HQ RU; rewrite E1 E2 E3 E4 => HQ RU.
have JB := no_basic103 HQ (@W103 x nil).
have LG i : (i < 1)%N -> `|lagrangian (length b) 0 (m_evals M x nil) (m_Wx M x nil) (MVec (vec x) (vec nil) (vec y)) i| < tol.
  case: i => // _; rewrite /lagrangian big1 ?addr0; last by move=> l _; rewrite W103 ?mul0r.
  by rewrite /= /m_f (Meq _ _ _ _ _ _ _ _ U) /= /at_ /= normr0; apply/R_ltP.
apply: (small_error HC HQ RU) => //.
- by apply/R_ltP.
- by right.
- by move=> i il; left; left; exact: LG.
- by rewrite JB.
Qed.
End Run103.

(** One iteration from a point that the clamping of the initial point and the backtracking may change *)
Section OneStep.
Variable W : Type.
Variable fupdate : W -> uvec xreal -> W.
Variable ferror : W -> uvec xreal -> xreal.
Variable newton : W -> W * uvec xreal.
Variable check : option (W -> uvec xreal -> uvec xreal -> xreal -> nat -> bool).
Variables (B : bounds xreal) (o : options xreal) (u0 u1 u2 u3 : uvec xreal).
Hypothesis C0 : clampu B u0 = u1.
Hypothesis NW : forall w, let du := snd (newton (fupdate w u1)) in
  UVec (map2 nadd (ux u1) (ux du)) (map2 nadd (up u1) (up du)) (map2 nadd (uw u1) (uw du)) = u2.
Hypothesis BT : backtrack (o_fix o) B u1 u2 = u3.
Hypothesis OK : forall w, nltb (ferror (fupdate w u3) u3) (o_tol o) = true.
Hypothesis MX : (1 <= o_maxiters o)%coq_nat.
Lemma solve_lands fuel w hist : exists s,
  solve W fupdate ferror newton None check (S fuel) B o w hist u0 = Some (Result true 1 nzero, s) /\ s_u s = u3.
Proof.
rewrite /solve; cbn [loop]; rewrite /initialize C0 /update; cbn [s_w s_uo s_u s_err s_iters s_hist s_evals s_iterates].
rewrite /step /newton_apply; cbn [s_w s_uo s_u s_err s_iters s_hist s_evals s_iterates].
have HN := NW w; case: (newton (fupdate w u1)) HN => [w' du]; cbn [snd] => ->.
rewrite /transform /with_u /update; cbn [s_w s_uo s_u s_err s_iters s_hist s_evals s_iterates].
rewrite BT /stepping; cbn [s_w s_uo s_u s_err s_iters s_hist s_evals s_iterates].
case: (Nat.ltb_spec (o_maxiters o) 1) => [H|_]; first lia.
rewrite /converged; cbn [s_w s_uo s_u s_err s_iters s_hist s_evals s_iterates]; rewrite OK; cbn [negb].
eexists; split.
  by cbn [s_iters]; destruct (o_maxiters o); [lia|reflexivity].
by [].
Qed.
End OneStep.

Lemma run103 part E ech nonfinite lus meth failed check fuel o f1 f2 f3 oAx oAp obc (w0 : world E) hist m b lo hi M st a a' y tol :
  partition_contract part -> update_master f1 f2 f3 oAx oAp obc (P103 b lo hi) = Some M -> ech_contract M ech ->
  (forall n (A : 'M[RF]_n), full_piv A (lus n A)) -> meth <> Rangespace -> length y = length b ->
  starts_at st (a :: nil) nil nil nil y nil nil nil -> o_tol o = XF tol -> Rlt 0 tol -> (1 <= o_maxiters o)%coq_nat ->
  clampu (m_bounds M) (fin (a :: nil) nil y) = fin (a' :: nil) nil y ->
  backtrack (o_fix o) (m_bounds M) (fin (a' :: nil) nil y) (fin (R0 :: nil) nil y) = fin (R0 :: nil) nil y ->
  exists r st', u_solve part ech nonfinite (w_newton M lus 0 meth failed) None check (S fuel) o f1 f2 f3 oAx oAp obc w0 hist m (P103 b lo hi) st = Some (r, st') /\
    r_succeeded r = true /\ r_iterations r = 1%N /\ starts_at st' (R0 :: nil) nil nil nil y nil nil nil.
Proof.
move=> HC U HE LUS NR Ly ST TOL t0 MX CL BT.
have [||s [S Us]] := @solve_lands _ (w_update part M ech nonfinite) (fun w _ => w_err w) (w_newton M lus 0 meth failed) check (m_bounds M) o _ _ (fin (R0 :: nil) nil y) _ CL _ BT _ MX fuel w0 hist.
- move=> v; have [dx [dy [H1 [H2 [H3 H4]]]]] := newton103 U nonfinite HC HE failed v a' Ly LUS NR; rewrite H1 /= /fin /=; congr UVec.
    by rewrite /map2 /= H2.
  by apply: (add_step y dy y) => // i _; rewrite H4; lra.
- by move=> v; rewrite TOL; exact: (err103 U).
have [||st' [S' H]] := @lift_run part _ ech nonfinite (w_newton M lus 0 meth failed) None check fuel.+1 o f1 f2 f3 oAx oAp obc w0 hist m (P103 b lo hi) M st
  (a :: nil) nil nil nil y nil nil nil (R0 :: nil) nil nil nil y nil nil nil (Result true 1 nzero) s U ST erefl erefl erefl Ly erefl erefl erefl.
- by rewrite !cats0.
- by rewrite !cats0.
by exists (Result true 1 nzero), st'.
Qed.

Lemma crossed_mix : let u := fin (R0 :: nil) nil nil in mix (betamin (Bounds (XF R1 :: nil) (XF R0 :: nil) nil nil) u u) u u = u.
Proof. by cbn; rewrite /reqb; case: Req_EM_T => // _ /=; rewrite /fin /=; congr UVec; congr (_ :: _); congr XF; ring. Qed.

(** ** C103 is refuted: whatever the initial point, the options and the state of the solver, one iteration ends with success
    (a) with bounds that exclude each other, *)
Theorem C103_bounds_refuted : let P := P103 nil (XF R1) (XF R0) in conforming P /\ infeasible P /\
  forall part E (ech : E -> rawmx RF -> rawmx RF -> rawvec RF -> E * rwq RF) nonfinite lus meth failed check fuel o f1 f2 f3 oAx oAp obc w0 hist m M st a tol,
  partition_contract part -> update_master f1 f2 f3 oAx oAp obc P = Some M -> ech_contract M ech ->
  (forall n (A : 'M[RF]_n), full_piv A (lus n A)) -> meth <> Rangespace ->
  starts_at st (a :: nil) nil nil nil nil nil nil nil -> o_tol o = XF tol -> Rlt 0 tol -> (1 <= o_maxiters o)%coq_nat ->
  exists r st', u_solve part ech nonfinite (w_newton M lus 0 meth failed) None check (S fuel) o f1 f2 f3 oAx oAp obc w0 hist m P st = Some (r, st') /\
    r_succeeded r = true /\ starts_at st' (R0 :: nil) nil nil nil nil nil nil nil.
Proof.
move=> P; split; first by repeat split.
split.
  move=> x p Lx _ [_ [_ [_ [_ [_ [WI _]]]]]]; have := WI 0%N; rewrite Lx /= => /(_ ltac:(lia)).
  by rewrite /rleb => -[]; do 2!case: Rle_dec => //; lra.
move=> part E ech nonfinite lus meth failed check fuel o f1 f2 f3 oAx oAp obc w0 hist m M st a tol HC U HE LUS NR ST TOL t0 MX.
have LB : m_bounds M = Bounds (XF R1 :: nil) (XF R0 :: nil) nil nil by rewrite (Meq _ _ _ _ _ _ _ _ U).
have MN (z w : R) : nmin (XF z) (XF w) = XF (Rmin z w).
  by rewrite /nmin /= /rltb /Rmin; case: Rlt_dec; case: Rle_dec => //= *; lra.
have MXX (z w : R) : nmax (XF z) (XF w) = XF (Rmax z w).
  by rewrite /nmax /= /rltb /Rmax; case: Rlt_dec; case: Rle_dec => //= *; [lra | congr XF; lra].
have CL z : clampu (m_bounds M) (fin (z :: nil) nil nil) = fin (R0 :: nil) nil nil.
  rewrite LB /clampu /fin /clampv /map2; cbn [ux up uw xlo xhi plo phi_ List.map List.combine fst snd]; rewrite MXX MN.
  suff -> : Rmin (Rmax z R1) R0 = R0 by [].
  by apply: Rmin_right; have := Rmax_r z R1; lra.
have [|r [st' [S1 [S2 [_ S3]]]]] := @run103 part E ech nonfinite lus meth failed check fuel o f1 f2 f3 oAx oAp obc w0 hist m nil (XF R1) (XF R0) M st a R0 nil tol HC U HE LUS NR erefl ST TOL t0 MX (CL a).
  rewrite /backtrack; case: o_fix; first exact: CL.
  by rewrite LB crossed_mix -LB; exact: CL.
by exists r, st'.
Qed.
Print Assumptions C103_bounds_refuted.

(** (b) with a constraint that no point meets: 0 x = 1. *)
Theorem C103_row_refuted : let P := P103 (R1 :: nil) XNInf XPInf in conforming P /\ ordered_bounds P /\ infeasible P /\
  forall part E (ech : E -> rawmx RF -> rawmx RF -> rawvec RF -> E * rwq RF) nonfinite lus meth failed check fuel o f1 f2 f3 oAx oAp obc w0 hist m M st a y tol,
  partition_contract part -> update_master f1 f2 f3 oAx oAp obc P = Some M -> ech_contract M ech ->
  (forall n (A : 'M[RF]_n), full_piv A (lus n A)) -> meth <> Rangespace ->
  starts_at st (a :: nil) nil nil nil (y :: nil) nil nil nil -> o_tol o = XF tol -> Rlt 0 tol -> (1 <= o_maxiters o)%coq_nat ->
  exists r st', u_solve part ech nonfinite (w_newton M lus 0 meth failed) None check (S fuel) o f1 f2 f3 oAx oAp obc w0 hist m P st = Some (r, st') /\
    r_succeeded r = true /\ starts_at st' (R0 :: nil) nil nil nil (y :: nil) nil nil nil.
Proof.
move=> P; split; first by repeat split.
split; first by split=> //; split; repeat constructor.
split.
  move=> x p _ _ [H _]; have := H 0%N; rewrite /= => /(_ ltac:(lia)); rewrite /lin /= /mzeros /at_ /=; lra.
move=> part E ech nonfinite lus meth failed check fuel o f1 f2 f3 oAx oAp obc w0 hist m M st a y tol HC U HE LUS NR ST TOL t0 MX.
have LB : m_bounds M = Bounds (XNInf :: nil) (XPInf :: nil) nil nil by rewrite (Meq _ _ _ _ _ _ _ _ U).
have IN z : all_inside (XNInf :: nil) (XPInf :: nil) (z :: nil) by case=> [|i] Hi; [split | exfalso; move: Hi => /=; lia].
have AP : all_inside nil nil nil by move=> i /= Hi; exfalso; lia.
have CL z : clampu (m_bounds M) (fin (z :: nil) nil (y :: nil)) = fin (z :: nil) nil (y :: nil) by rewrite LB; apply: clampu_id => //; exact: IN.
have [|r [st' [S1 [S2 [_ S3]]]]] := @run103 part E ech nonfinite lus meth failed check fuel o f1 f2 f3 oAx oAp obc w0 hist m (R1 :: nil) XNInf XPInf M st a a (y :: nil) tol HC U HE LUS NR erefl ST TOL t0 MX (CL a).
  case: o_fix; first exact: CL.
  rewrite LB; apply: Backtrack_proofs.backtrack_feasible => //; exact: IN.
by exists r, st'.
Qed.
Print Assumptions C103_row_refuted.

(** ** What holds: the state that a successful calculation returns has no infinities and NaNs, if a point with such
    components does not pass the tolerance. *)
Lemma success_real part E ech nonfinite newton phi fuel o f1 f2 f3 oAx oAp obc (w0 : world E) hist m P st r st' tol :
  o_tol o = XF tol -> (forall a u, nltb (snd (nonfinite a u)) (XF tol) = false) ->
  u_solve part ech nonfinite newton phi None fuel o f1 f2 f3 oAx oAp obc w0 hist m P st = Some (r, st') -> r_succeeded r = true ->
  exists x xbg xhg p ye yg ze zg, starts_at st' x xbg xhg p ye yg ze zg.
Proof.
move=> TOL NF; rewrite /u_solve; case U: update_master => [M|//].
case S: m_solve => [[r0 s]|//] [ER ES]; rewrite -{}ES {st'}; rewrite {r0}ER in S => OK.
have [[w' Ew] [Ee /(_ OK) CR]] := @C49_success_sound _ _ _ _ _ _ _ _ _ _ _ _ _ _ _ _ S.
have [x [p [w [F1 F2 F3]]]] : exists x p w, [/\ ux (s_u s) = List.map XF x, up (s_u s) = List.map XF p & uw (s_u s) = List.map XF w].
  case: CR => [|[c [//]]]; rewrite Ee Ew TOL /w_update.
  case F1: (finite (ux (s_u s))) => [x|]; last by case N: (nonfinite _ _) => [a b] /=; have := NF (w_e w') (s_u s); rewrite N /= => ->.
  case F2: (finite (up (s_u s))) => [p|]; last by case N: (nonfinite _ _) => [a b] /=; have := NF (w_e w') (s_u s); rewrite N /= => ->.
  case F3: (finite (uw (s_u s))) => [w|]; last by case N: (nonfinite _ _) => [a b] /=; have := NF (w_e w') (s_u s); rewrite N /= => ->.
  by move=> _; exists x, p, w; split; exact: finite_some.
have [T1 T2 T3] : let m' := finalize (to_master m st) (s_w s) (s_u s) in [/\ t_x m' = List.map XF x, t_p m' = List.map XF p & t_w m' = List.map XF w].
  by rewrite /finalize; case: w_res => [rr|] /=; rewrite F1 F2 F3.
set d := p_dims P.
exists (head (d_x d) x), (segment (d_x d) (d_bg d) x), (tail (d_hg d) x), p,
  (head (d_be d) (head (ny d) w)), (tail (d_bg d) (head (ny d) w)), (head (d_he d) (tail (nz d) w)), (tail (d_hg d) (tail (nz d) w)).
rewrite /starts_at /of_master; cbn [s_x s_xbg s_xhg s_p s_ye s_yg s_ze s_zg]; rewrite T1 T2 T3.
have HD n (l : list R) : head n (List.map XF l) = List.map XF (head n l) by exact: List.firstn_map.
have TL n (l : list R) : tail n (List.map XF l) = List.map XF (tail n l) by rewrite /tail List.map_length; exact: List.skipn_map.
by rewrite /segment List.skipn_map List.firstn_map !(HD, TL).
Qed.

(** ** C103 for one linear equality constraint a x = b, bounds that do not exclude each other, and no other constraints: if every point within the bounds violates
    the constraint by more than tol max |a_j| and 2^-52 times its magnitudes, then solve does not report success -
    whatever the objective function, the Newton directions and the transformations.  Missing: linear constraints that
    are dependent ([C103_row_refuted]) and bounds that exclude each other ([C103_bounds_refuted]); several constraints,
    for which the room is that of C83. *)
Theorem C103_one_row_partial : forall part lu srt th sigma nonfinite newton phi fuel o f1 f2 f3 oAx oAp obc w0 hist m P M st r st' tol,
  let d := p_dims P in
  partition_contract part -> lu_correct lu -> sort_correct srt -> 0 <= th ->
  conforming P -> ordered_bounds P -> block_unspoiled f1 oAx d -> update_master f1 f2 f3 oAx oAp obc P = Some M ->
  state_sized d st -> length (s_p st) = d_p d ->
  (forall w, sized (nxbar d) (d_p d) (ny d + nz d) (snd (newton w))) ->
  (forall ph w xo x, phi = Some ph -> length x = nxbar d -> length (snd (ph w xo x)) = nxbar d) ->
  o_tol o = XF tol -> (forall a u, nltb (snd (nonfinite a u)) (XF tol) = false) ->
  d_p d = 0%N -> d_be d = 1%N -> d_bg d = 0%N -> d_he d = 0%N -> d_hg d = 0%N ->
  (exists j, (j < d_x d)%coq_nat /\ p_Aex P 0%N j <> R0) ->
  (forall x j, length x = d_x d -> Wrapper_spec.within (p_xlower P) (p_xupper P) x -> (j < d_x d)%coq_nat ->
    Rlt (Rplus (Rmult (Rabs (p_Aex P 0%N j)) tol)
          (Rmult (Rinv (pow 2 52)) (Rplus (Rabs (at_ (p_be P) 0)) (Wrapper_spec.sum (d_x d) (fun k => Rmult (Rabs (p_Aex P 0%N k)) (Rabs (at_ x k)))))))
      (Rabs (Rminus (Wrapper_spec.sum (d_x d) (fun k => Rmult (p_Aex P 0%N k) (at_ x k))) (at_ (p_be P) 0)))) ->
  u_solve part (the_ech lu srt th sigma M) nonfinite newton phi None fuel o f1 f2 f3 oAx oAp obc w0 hist m P st = Some (r, st') ->
  r_succeeded r = false.
Proof.
move=> part lu srt th sigma nonfinite newton phi fuel o f1 f2 f3 oAx oAp obc w0 hist m P M st r st' tol d.
move=> HC LC SC th0 C O B U SS Lp HN HP TOL NF D1 D2 D3 D4 D5 [j0 [jl0 a0]] GAP S.
apply/negP => OK.
have [x [xbg [xhg [p [ye [yg [ze [zg [E1 [E3 [E4 [E2 [E5 [E6 [E7 E8]]]]]]]]]]]]]]] := success_real TOL NF S OK.
have HE M' : update_master f1 f2 f3 oAx oAp obc P = Some M' -> ech_contract M' (the_ech lu srt th sigma M).
  by rewrite U => -[<-]; exact: C83_contract.
have [SS' [M' [jb [U' [[a [wt [WT PM]]] [UN [_ UC]]]]]]] := C75_success_partial HC C O B HE SS Lp HN HP TOL S OK E1 E2 E3 E4 E5 E6 E7 E8.
have EMM : M' = M by move: U'; rewrite U => -[].
rewrite {}EMM {M' U'} in PM UC WT.
have [LX [_ [_ [_ [_ [LG LH]]]]]] := SS'.
rewrite E1 E3 E4 !List.map_length -/d in LX LG LH.
have [_ LP] := returned_sized C O SS Lp HN HP S; rewrite E2 List.map_length -/d D1 in LP.
have xg0 : xbg = nil by move: LG; rewrite D3; case: xbg {E3 UN PM UC WT}.
have xh0 : xhg = nil by move: LH; rewrite D5; case: xhg {E4 UN PM UC WT}.
have p0 : p = nil by move: LP; case: p {E2 UN PM UC WT}.
move: PM UC UN LG LH; rewrite {}xg0 {}xh0 {}p0 List.app_nil_l !List.app_nil_r => PM UC UN LG LH.
have I : independent_equalities P x nil.
  move=> f g; rewrite -/d D2 D4 /= => H; split=> [[|i]|i] //; [| lia | lia].
  move=> _; have := H j0 jl0; rewrite Rplus_0_r Rplus_0_l => /Rmult_integral [//|E0]; first by case: (a0 E0).
have LQ : length (qjb (the_ech lu srt th sigma M a (m_Wx M x nil) (m_Wp M x nil) wt).2) = 1%N.
  have := @the_ech_full lu srt th sigma f1 f2 f3 oAx oAp obc P M x nil nil nil a wt LC SC th0 U B LX LG LH I.
  by rewrite -/d D2 D3 D4 D5 List.app_nil_l List.app_nil_r.
have EM : [/\ ms_nx M = d_x d, ms_np M = 0%N, ms_ny M = 1%N & ms_nz M = 0%N].
  by rewrite (Meq _ _ _ _ _ _ _ _ U) /=; rewrite /nxbar /ny /nz -/d D1 D2 D3 D4 D5 !Nat.add_0_r.
have [Enx Enp Eny Enz] := EM.
have [j Ej] : exists j, jb = j :: nil.
  have := Permutation_length PM; rewrite LQ; case: (jb) => [|j [|k l]] //= _; by exists j.
rewrite {jb}Ej in PM UC UN.
have jl : (j < d_x d)%coq_nat.
  have [PQ _ _ _] := HE M U a x nil wt nil.
  have : In j (indices (ms_nx M)).
    apply: (Permutation_in _ (Permutation_sym PQ)); apply/in_app_iff; left; by apply: (Permutation_in _ (Permutation_sym PM)); left.
  by rewrite /indices Enx => /in_seq [_].
have A k : (k < d_x d)%coq_nat -> cWx M x nil 0 k = p_Aex P 0%N k.
  move=> kl; rewrite /cWx Eny /=.
  rewrite (Ax_doc _ _ _ _ _ _ _ _ U (unspoiled_block _ _ _ B) x nil nil LX LG LH 0%N k) -/d /documented_Ax ?D2 /=.
  - by case: Nat.ltb_spec => //; lia.
  - by rewrite /ny D2; lia.
  - by rewrite /nxbar; lia.
have [|V [V1 [V2 _]]] := UC; first by rewrite -/d D2 D3 D4 D5.
have := V1 0%N 0%N (Nat.lt_0_1) (Nat.lt_0_1); rewrite Eny Enz /= A // Rplus_0_l => VA.
have := V2 0%N; rewrite -/d D2 D1 => /(_ Nat.lt_0_1); rewrite /lin /= Rplus_0_r.
apply: Rlt_not_le; apply: Rle_lt_trans (GAP x j LX _ jl); last by case: UN.
rewrite /allowed /row_room /cmag /ctarget Eny Enz Enx Enp; set e52 := Rinv _; cbn [length List.nth Wrapper_spec.sum Nat.add Nat.ltb Nat.leb].
rewrite A // !Rplus_0_l Rplus_0_r.
have -> : at_ (ms_b M) 0 = at_ (p_be P) 0.
  by rewrite (Meq _ _ _ _ _ _ _ _ U) /=; apply: at_app1; have [-> _] := C; rewrite -/d D2; lia.
set S1 := Wrapper_spec.sum _ _; set S2 := Wrapper_spec.sum _ _.
have -> : S1 = S2 by apply: sum_ext => k kl; rewrite A.
rewrite Rmult_plus_distr_l; apply: Rplus_le_compat_l; apply: Req_le.
have V0 : Rmult (Rabs (p_Aex P 0%N j)) (Rabs (V 0%N 0%N)) = R1 by rewrite -Rabs_mult Rmult_comm VA Rabs_R1.
transitivity (Rmult (Rmult (Rabs (p_Aex P 0%N j)) (Rabs (V 0%N 0%N))) (Rmult e52 (Rplus (Rabs (at_ (p_be P) 0)) S2))); last by rewrite V0 Rmult_1_l.
by ring.
Qed.
Print Assumptions C103_one_row_partial.

(** For example min x^2/2 subject to x = 3 and 0 <= x <= 1 with the Newton directions of the solver, from every point *)
Definition P103c : problem R xreal := Problem (Dims 1 0 1 0 0 0 0) None (Some f103) (Some cfn0) (Some cfn0) (Some cfn0)
  (fun _ _ => R1) mzeros mzeros mzeros (IZR 3 :: nil) nil (XF R0 :: nil) (XF R1 :: nil) nil nil nil mzeros mzeros.
Definition st103 (a : xreal) : ustate xreal := UState (Dims 1 0 1 0 0 0 0) (a :: nil) nil (XF R0 :: nil) nil nil nil nil nil nil nil nil nil nil nil nil.
Example C103_case : let o := Options 20 (XF (Rinv 1000)) false in infeasible P103c /\ exists lu srt lus M,
  lu_correct lu /\ sort_correct srt /\ update_master mem7 mem7 mem7 old7 old7 old7 P103c = Some M /\ forall a,
  exists r st', u_solve libstdcxx_partition (the_ech lu srt 0 0 M) (fun a _ => (a, XNaN)) (w_newton M lus 0 Nullspace (fun w => (w, fin (R0 :: nil) nil (R0 :: nil)))) None None 21
        o mem7 mem7 mem7 old7 old7 old7 w83 nil m0 P103c (st103 a) = Some (r, st') /\ r_succeeded r = false.
Proof.
move=> o; split.
  move=> x p Lx _ [H [_ [_ [_ [_ [WI _]]]]]]; have := WI 0%N; rewrite Lx /= => /(_ ltac:(lia)) [_].
  have := H 0%N; rewrite /= => /(_ ltac:(lia)); rewrite /lin /at_ /= => E; rewrite /rleb /at_; case: Rle_dec => // *; lra.
have [lu LC] := lu_correct_exists RF; have [srt SC] := sort_correct_exists RF; have [lus LUS] := lu_exists RF.
have [M U] : exists M, update_master mem7 mem7 mem7 old7 old7 old7 P103c = Some M by eexists; reflexivity.
exists lu, srt, lus, M; do 3![split=> //] => a.
have EM : [/\ ms_nx M = 1%N, ms_np M = 0%N, ms_ny M = 1%N & ms_nz M = 0%N] by rewrite (Meq _ _ _ _ _ _ _ _ U).
have [E1 E2 E3 E4] := EM.
pose newton := w_newton M lus 0 Nullspace (fun w : world (list (rawmx RF * rawvec RF)) => (w, fin (R0 :: nil) nil (R0 :: nil))).
pose u0 := UVec (t_x (to_master m0 (st103 a))) (t_p (to_master m0 (st103 a))) (t_w (to_master m0 (st103 a))).
have [r [s [S _]]] := C48_terminates_partial _ _ _ (w_update libstdcxx_partition M (the_ech lu srt 0 0 M) (fun a _ => (a, XNaN))) (fun w _ => w_err w) newton None None (m_bounds M) o 21 w83 nil u0 ltac:(rewrite /=; lia).
exists r; eexists; split; first by rewrite /u_solve U /m_solve S.
have LE b c : Rle b c -> rleb b c = true by move=> H; rewrite /rleb; case: Rle_dec.
have CF : conforming P103c by repeat split.
have OB : ordered_bounds P103c by split=> //; split; repeat constructor; apply: LE; lra.
have BU : block_unspoiled mem7 old7 (p_dims P103c) by right; left.
apply: (@C103_one_row_partial libstdcxx_partition lu srt 0 0 (fun a _ => (a, XNaN)) newton None 21 o mem7 mem7 mem7 old7 old7 old7 w83 nil m0 P103c M (st103 a) r _ (Rinv 1000)
   libstdcxx_contract LC SC (lexx _) CF OB BU U) => //; last by rewrite /u_solve U /m_solve S.
- move=> w; rewrite /newton /w_newton; case: w_res => [rr|//]; case: newton_dir => [du|//].
  by rewrite /sized; cbn [ux up uw snd]; rewrite !List.map_length !List.seq_length E1 E2 E3 E4.
- by exists 0%N; split; [rewrite /=; lia | rewrite /=; exact: R1_neq_R0].
move=> x j Lx WI jl; case: x Lx WI => [|b [|]] // _ /(_ 0%N Nat.lt_0_1) [].
rewrite /= /rleb; case: Rle_dec => // b0 _; case: Rle_dec => // b1 _; move: b0 b1; rewrite /at_; cbn [List.nth Wrapper_spec.sum P103c p_dims d_x p_Aex p_be] => b0 b1.
have e52 : Rle (Rinv (pow 2 52)) (Rinv (IZR 4)).
  by apply: Rinv_le_contravar; [lra | replace (IZR 4) with (pow 2 2) by (rewrite /=; lra); apply: Rle_pow; [lra | lia]].
rewrite Rabs_R1 (Rabs_pos_eq b) // (Rabs_pos_eq 3); last lra.
rewrite (Rabs_left (Rminus _ _)); last lra.
have : Rle (Rmult (Rinv (pow 2 52)) (Rplus 3 (Rplus 0 (Rmult 1 b)))) (Rmult (Rinv 4) (Rplus 3 (Rplus 0 (Rmult 1 b)))) by apply: Rmult_le_compat_r => //; lra.
set e := Rmult (Rinv (pow 2 52)) _; lra.
Qed.

(** and 0 x = 1, reported as solved *)
Example C103_row_case : let P := P103 (R1 :: nil) XNInf XPInf in let o := Options 20 (XF (Rinv 1000)) false in exists lu srt lus M r st',
  [/\ lu_correct lu /\ sort_correct srt, update_master mem7 mem7 mem7 old7 old7 old7 P = Some M,
      u_solve libstdcxx_partition (the_ech lu srt 0 0 M) (fun a _ => (a, XNaN)) (w_newton M lus 0 Nullspace (fun w => (w, fin (R0 :: nil) nil (R0 :: nil)))) None None 21
        o mem7 mem7 mem7 old7 old7 old7 w83 nil m0 P (st103 (XF (IZR 5))) = Some (r, st') & r_succeeded r = true].
Proof.
move=> P o.
have [lu LC] := lu_correct_exists RF; have [srt SC] := sort_correct_exists RF; have [lus LUS] := lu_exists RF.
have [M U] : exists M, update_master mem7 mem7 mem7 old7 old7 old7 P = Some M by eexists; reflexivity.
have [_ [_ [_ H]]] := C103_row_refuted.
have [||||r [st' [S1 [S2 _]]]] := H libstdcxx_partition _ (the_ech lu srt 0 0 M) (fun a _ => (a, XNaN)) lus Nullspace (fun w => (w, fin (R0 :: nil) nil (R0 :: nil))) None 20%N
  o mem7 mem7 mem7 old7 old7 old7 w83 nil m0 M (st103 (XF (IZR 5))) (IZR 5) R0 (Rinv 1000) libstdcxx_contract U (C83_contract _ _ LC SC (lexx _)) LUS _ _ erefl.
- by [].
- by [].
- lra.
- by rewrite /=; lia.
by exists lu, srt, lus, M, r, st'.
Qed.
