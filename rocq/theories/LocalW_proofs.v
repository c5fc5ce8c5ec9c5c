(** Proofs for C87: one iteration near a solution, in the model of the solver. *)
From Coq Require Import List PeanoNat Permutation Reals Lra Lia.
From mathcomp Require Import all_ssreflect all_fingroup all_algebra.
From Verif Require Import Num Num_facts Index_model Index_spec Index_proofs Num_rf R_rf LU_model LU_spec Linear_model Linear_spec Canonical_model Canonical_spec Canonical_proofs.
From Verif Require Import ResErr_model Residual_model Residual_spec Residual_proofs P_Residual Accept_proofs EchelonO_model EchelonO_spec EchelonOEx_proofs.
From Verif Require Import Loop_model Loop_spec Wrapper_model Wrapper_spec Wrapper_proofs P_Wrapper End_model End_spec Near_proofs End_proofs.
From Verif Require Import Newton_model Newton_spec Newton_proofs P_End P_EchelonO Pivot_spec P_Licq Indep_proofs Status_spec SensW_spec SensW_proofs P_SensW Converge_spec Converge_proofs Local_proofs.
Set Implicit Arguments.
Unset Strict Implicit.
Unset Printing Implicit Defensive.
Import Order.TTheory GRing.Theory Num.Theory.
Local Open Scope ring_scope.
Local Notation "l ++ l'" := (List.app l l') : seq_scope.

Section Local.
Variables (part : partition_impl) (lu : lu_impl RF) (srt : sort_impl RF) (th sigma : RF).
Variable nonfinite : list (rawmx RF * rawvec RF) -> uvec xreal -> list (rawmx RF * rawvec RF) * xreal.
Variables (lus : forall n, 'M[RF]_n -> lufac RF n) (meth : lsmethod).
Variable failed : world (list (rawmx RF * rawvec RF)) -> world (list (rawmx RF * rawvec RF)) * uvec xreal.
Variables (f1 f2 f3 : nat -> R) (oAx oAp obc : mat R) (P : problem R xreal) (M : master R xreal).
Let d := p_dims P.
Hypotheses (HC : partition_contract part) (LC : lu_correct lu) (SC : sort_correct srt) (th0 : 0 <= th).
Hypothesis LUS : forall n (A : 'M[RF]_n), full_piv A (lus A).
Hypothesis NR : meth <> Rangespace.
Hypotheses (CF : conforming P) (U : update_master f1 f2 f3 oAx oAp obc P = Some M) (B : block_unspoiled f1 oAx d).
Hypothesis N0 : (0 < d_be d + d_bg d + d_he d + d_hg d)%coq_nat.
Variables (a : upoint) (kappa L C K mu Gamma rm A rho : R).
Hypothesis CD : conditioned P a kappa.
Hypothesis SM : smooth P a L C rho.
Hypothesis LP : lipschitz P a K rho.
Hypothesis MG : margins P a mu.
Hypothesis BS : bases P a M Gamma rm A rho.
Hypothesis LI : forall b, near P a rho b -> licq P (ptx b) (ptbg b) (pthg b) (ptp b).
Hypothesis WPV : forall b, near P a rho b -> well_pivoted th M (ptx b ++ ptbg b ++ pthg b) (ptp b).
Hypothesis KK : user_kkt P (ptx a) (ptp a) (ptye a) (ptyg a) (ptze a) (ptzg a).
Hypothesis SL : slacks P (ptx a) (ptp a) (ptbg a) (pthg a).
Hypotheses (k0 : Rle 0 kappa) (L0 : Rle 0 L) (C0 : Rle 0 C) (K1 : Rle 1 K) (rm0 : Rle 0 rm) (A0 : Rle 0 A).
Hypotheses (kL : Rle (Rmult kappa (Rmult L rho)) (Rinv 8)) (rho_mu : Rlt rho mu) (K_mu : Rlt (Rmult K rho) mu).

Let ech := the_ech lu srt th sigma M.
Let EM : [/\ ms_nx M = nxbar d, ms_np M = d_p d, ms_ny M = ny d & ms_nz M = nz d].
Proof. by rewrite (Meq _ _ _ _ _ _ _ _ U). Qed.
Let HE : ech_contract M ech.
Proof. exact: C83_contract. Qed.
Let Z := unspoiled_block _ _ _ B.

(** the solution *)
Let SA j : (j < d_x d)%coq_nat -> ~ held P a j -> stab P a j = R0.
Proof.
move=> jl NH; have [_ [/(_ j jl) H _]] := KK; move: H; rewrite -/(user_stability P (ptx a) (ptp a) (ptye a) (ptyg a) (ptze a) (ptzg a) j) -/(stab P a j).
case=> [//|[[H1 H2]|[H1 H2]]].
- case: (Rle_lt_or_eq_dec _ _ (Rge_le _ _ H2)) => [H|//]; by case: NH; left.
- case: (Rle_lt_or_eq_dec _ _ H2) => [H|//]; by case: NH; right.
Qed.
Let YA i : (i < d_bg d)%coq_nat -> ~ bg_held a i -> at_ (ptyg a) i = R0.
Proof.
move=> il NH; have [_ [_ [/(_ i il) [H1 H2] _]]] := KK; have [/(_ i il) S _] := SL.
case: H2 => [//|H2]; case: (Rle_lt_or_eq_dec _ _ H1) => [H|//].
case: NH; split=> //; rewrite S; unfold d in *; lra.
Qed.
Let ZA i : (i < d_hg d)%coq_nat -> ~ hg_held a i -> at_ (ptzg a) i = R0.
Proof.
move=> il NH; have [_ [_ [_ /(_ i il) [H1 H2]]]] := KK; have [_ /(_ i il) S] := SL.
case: H2 => [//|H2]; case: (Rle_lt_or_eq_dec _ _ H1) => [H|//].
by case: NH; split=> //; rewrite S H2 Ropp_0.
Qed.

Section Point.
Variables (r : R) (b : upoint).
Hypotheses (Hr : Rle 0 r /\ Rle r rho) (NB : near P a r b).
Let X := ptx b ++ ptbg b ++ pthg b.
Let W := ptye b ++ ptyg b ++ ptze b ++ ptzg b.
Let p := ptp b.

Let Sb : pt_sized d b. Proof. by case: NB. Qed.
Let NR' : near P a rho b.
Proof. by have [H1 [H2 H3]] := NB; split=> //; split=> //; exact: (bounded_le _ _ _ _ (proj2 Hr) H2). Qed.
Let Lq := LI NR'.
Let Wq := WPV NR'.
Let rmu : Rlt r mu. Proof. have := Hr; lra. Qed.
Let Krmu : Rlt (Rmult K r) mu.
Proof. have : Rle (Rmult K r) (Rmult K rho) by apply: Rmult_le_compat_l; have := Hr; lra.
by move=> ?; lra. Qed.
Let kLr : Rle (Rmult kappa (Rmult L r)) (Rinv 8).
Proof.
apply: Rle_trans kL; apply: Rmult_le_compat_l => //; apply: Rmult_le_compat_l => //; have := Hr; lra.
Qed.
Let Lx : length (ptx b) = d_x d. Proof. by case: Sb. Qed.
Let Lbg : length (ptbg b) = d_bg d. Proof. by case: Sb => _ [_ []]. Qed.
Let Lhg : length (pthg b) = d_hg d. Proof. by case: Sb => _ [_ [_ []]]. Qed.
Let Lye : length (ptye b) = d_be d. Proof. by case: Sb => _ [_ [_ [_ []]]]. Qed.
Let Lyg : length (ptyg b) = d_bg d. Proof. by case: Sb => _ [_ [_ [_ [_ []]]]]. Qed.
Let Lze : length (ptze b) = d_he d. Proof. by case: Sb => _ [_ [_ [_ [_ [_ []]]]]]. Qed.

Let LQ ea wt : length (qjb (ech ea (m_Wx M X p) (m_Wp M X p) wt).2) = (ms_ny M + ms_nz M)%N.
Proof.
have [_ _ -> ->] := EM.
rewrite (the_ech_full _ _ _ LC SC th0 U B Lx Lbg Lhg (licq_independent _ _ _ _ _ Lq)) -/d /ny /nz -!plusE; lia.
Qed.

(** the basic variables of the canonical form meet the hypotheses of [bases] *)
Lemma basis_ok ea wt rr : weights_at M X wt -> let q := (ech ea (m_Wx M X p) (m_Wp M X p) wt).2 in
  rf_update part (ms_nx M) (ms_np M) (ms_ny M) (ms_nz M) (m_data M X) (m_evals M X p) (m_Wx M X p) (m_Wp M X p) q
    (MVec (vec X : rawvec RF) (vec p : rawvec RF) (vec W : rawvec RF)) = Some rr ->
  let nw := (ms_ny M + ms_nz M)%N in
  (forall i, (i < nw)%N -> Rle (Wrapper_spec.sum nw (fun l => Rabs (kR (rc rr) i l))) Gamma /\ Rle (row_room M X p (kR (rc rr)) i) rm) /\
  (forall l, (l < nw)%N -> Rle (Wrapper_spec.sum nw (fun i => Rabs (cWx M X p l (List.nth i (kjb (rc rr)) 0%N)))) A).
Proof.
move=> WT q RU nw.
have HQ : echelon_of (ms_nx M) (ms_np M) (ms_ny M + ms_nz M) (m_evals M X p) (m_Wx M X p) (m_Wp M X p) q by exact: HE.
have [_ CV _] := rf_update_view HC HQ RU.
have PB := cv_basic CV.
have [ND RG] := jb_nodup HQ.
have E : nw = (d_be d + d_bg d + d_he d + d_hg d)%coq_nat by rewrite /nw; have [_ _ -> ->] := EM; rewrite /ny /nz; nlia.
have LK : length (kjb (rc rr)) = nw by rewrite -(Permutation_length PB) LQ.
have [||||G1 G2] := BS (jb := kjb (rc rr)) (V := kR (rc rr)) NR'.
- by rewrite LK E.
- exact: (Permutation_NoDup PB).
- exact: (kR_inverts HC HQ RU).
- move=> j /(Permutation_in _ (Permutation_sym PB)) H; split; first by apply/ssrnat.ltP; exact: RG.
  exact: (licq_basic LC SC th0 CF U B Lx Lbg Lhg Lq Wq WT H).
rewrite -/d -E in G1 G2; split=> i /ssrnat.ltP il; [exact: G1 | exact: G2].
Qed.

Lemma room_ok ea wt rr i : weights_at M X wt -> let q := (ech ea (m_Wx M X p) (m_Wp M X p) wt).2 in
  rf_update part (ms_nx M) (ms_np M) (ms_ny M) (ms_nz M) (m_data M X) (m_evals M X p) (m_Wx M X p) (m_Wp M X p) q
    (MVec (vec X : rawvec RF) (vec p : rawvec RF) (vec W : rawvec RF)) = Some rr -> (i < ms_ny M + ms_nz M)%N ->
  roundoff (ms_ny M) (ms_nz M) (kR (rc rr)) (rv_awstar (ms_np M) (ms_ny M) (m_data M X) (m_evals M X p) (rM rr) (rc rr) (MVec (vec X : rawvec RF) (vec p : rawvec RF) (vec W : rawvec RF))) i <= (rm : RF).
Proof.
move=> WT q RU il; have [/(_ i il) [_ /R_leP H] _] := basis_ok WT RU.
have HQ : echelon_of (ms_nx M) (ms_np M) (ms_ny M + ms_nz M) (m_evals M X p) (m_Wx M X p) (m_Wp M X p) q by exact: HE.
apply: le_trans H; rewrite /roundoff /row_room -eps_spec.
rewrite -(sum_big (ms_ny M + ms_nz M) (fun l => `|kR (rc rr) i l| * (cmag M X p l : RF))).
apply: ler_wpmul2l; first by rewrite invr_ge0; apply: exprn_ge0; apply: ler0n.
by apply: ler_sum => l _; apply: ler_wpmul2l => //; exact: (cmag_ge HC HQ _ RU).
Qed.

(** the constraints left over at b *)
Lemma left_small : forall l, (l < ms_ny M + ms_nz M)%N -> Rle (Rabs (cleft M X p l)) (Rmult K r).
Proof.
have [_ [_ [H1 [H2 [H3 H4]]]]] := LP Hr NB.
have [E1 [E2 [E3 E4]]] := cleft_rows _ _ _ _ _ _ _ _ CF U Z _ Sb.
have [_ _ E5 E6] := EM; rewrite E5 E6 => l /ssrnat.ltP ll.
pose f l := if Rle_dec (Rabs (cleft M X p l)) (Rmult K r) then R0 else R1.
have : f l = R0.
  have E t : Rle (Rabs t) (Rmult K r) -> (if Rle_dec (Rabs t) (Rmult K r) then R0 else R1) = R0 by case: Rle_dec.
  apply: (all_rows P (ptx b) (ptbg b) (pthg b) Lx Lbg Lhg f _ _ _ _ l ll) => i il; apply: E.
  - by rewrite E1 //; exact: H1.
  - by rewrite E2 //; exact: H2.
  - by rewrite E3 //; exact: H3.
  - by rewrite E4 //; exact: H4.
by rewrite /f; case: Rle_dec => [H _|n H]; [exact: H | case: (R1_neq_R0 H)].
Qed.

(** the error is small *)
Lemma near_err w tol : Rlt (Rmult K r) tol -> Rlt (Rplus (Rmult Gamma (Rmult K r)) rm) tol ->
  nltb (w_err (w_update part M ech nonfinite w (fin X p W))) (XF tol) = true.
Proof.
move=> T1 T2.
have Tr : Rlt r tol.
  have : Rle (Rmult 1 r) (Rmult K r) by apply: Rmult_le_compat_r => //; case: Hr.
  by move=> ?; lra.
have [q [rr [[ea [wt [WT Eq]]] HQ RU _ ->]]] := w_update_fin nonfinite w X p W HC HE.
rewrite /= /rltb; case: Rlt_dec => // -[]; apply/R_ltP.
have [Enx Enp Eny Enz] := EM.
have Kr : Rle 0 (Rmult K r) by apply: Rmult_le_pos; have := Hr; lra.
have [S1 [S2 _]] := LP Hr NB.
have LQ' : length (qjb q) = (ms_ny M + ms_nz M)%N by rewrite Eq LQ.
have RU' := RU; rewrite Eq in RU'.
apply: (small_error HC HQ RU).
- by apply/R_ltP; exact: Rle_lt_trans Kr T1.
- left=> Q0; move: (LQ'); rewrite Q0 Eny Enz /= /ny /nz; move: N0; nlia.
- move=> j; rewrite Enx => /ssrnat.ltP jl; left.
  have LAG : lagrangian (ms_ny M) (ms_nz M) (m_evals M X p) (m_Wx M X p) (MVec (vec X : rawvec RF) (vec p : rawvec RF) (vec W : rawvec RF)) j = cgrad M X p W j by rewrite lagrangian_spec.
  rewrite /kkt_x LAG.
  have BX i : (i < nxbar d)%coq_nat -> bd (ms_xlower M) i = XF (at_ X i) -> mx (MVec (vec X : rawvec RF) (vec p : rawvec RF) (vec W : rawvec RF)) i = dxl (m_data M X) i.
    by move=> il /=; rewrite /bd => ->.
  have BY i : (i < nxbar d)%coq_nat -> bd (ms_xupper M) i = XF (at_ X i) -> mx (MVec (vec X : rawvec RF) (vec p : rawvec RF) (vec W : rawvec RF)) i = dxu (m_data M X) i.
    by move=> il /=; rewrite /bd => ->.
  have CG3 : cgrad M X p W j = Rplus (Rplus (o_fx (ovalue (ms_f M) X p (ms_c M)) j) (Wrapper_spec.sum (ny d) (fun i => Rmult (mget (ms_Ax M) i j) (at_ W i))))
      (Wrapper_spec.sum (nz d) (fun i => Rmult (c_ddx (value (ms_h M) X p (ms_c M)) i j) (at_ W (ny d + i)%coq_nat))) by rewrite /cgrad Eny Enz.
  case: (lt_dec j (d_x d)) => [j1|j1]; last case: (lt_dec j (d_x d + d_bg d)%coq_nat) => [j2|j2].
  + have EG : cgrad M X p W j = stab P b j.
      rewrite CG3; exact: (lag_x _ _ _ _ _ _ _ _ U Z _ _ _ _ _ _ _ _ Lx Lbg Lhg Lye Lyg Lze j j1).
    rewrite EG; have [H|H] := held_dec P a j.
      have {H} : held P b j by exact: (proj2 (held_near P a rho K mu LP MG r b Hr NB rmu Krmu j j1) H).
      have [Bl Bu] := bd_x _ _ _ _ _ _ _ _ CF U j j1.
      case=> -[H1 H2]; right; [left | right]; split; try exact/R_ltP; [apply: BX | apply: BY] => //; rewrite ?Bl ?Bu (xbar_x P _ _ _ Lx) //.
    left; have := S1 j j1; rewrite (SA j1 H) Rminus_0_r => H'; apply/R_ltP; exact: Rle_lt_trans H' _.
  + pose i := (j - d_x d)%coq_nat; have il : (i < d_bg d)%coq_nat by rewrite /i; lia.
    have Ej : j = (d_x d + i)%coq_nat by rewrite /i; lia.
    have EG : cgrad M X p W j = at_ (ptyg b) i.
      rewrite CG3 Ej; exact: (lag_bg _ _ _ _ _ _ _ _ U Z _ _ _ _ _ _ _ _ Lx Lbg Lhg Lye Lyg Lze i il).
    rewrite EG; have [H|H] := bg_held_dec a i.
      have {H} [H1 H2] : bg_held b i by exact: (proj2 (bg_held_near P a rho mu MG r b Hr NB rmu i il) H).
      have [|_ Bu] := bd_slack _ _ _ _ _ _ _ _ CF U i; first by move: il; rewrite -/d; lia.
      right; right; split; last exact/R_ltP.
      by apply: BY => //; rewrite Ej Bu (xbar_bg P _ _ _ Lx Lbg) // H1.
    left; apply/R_ltP; apply: Rle_lt_trans Tr.
    by have [_ [[_ [_ [_ [_ [_ [/(_ i il) H' _]]]]]] _]] := NB; move: H'; rewrite /= (YA il H) Rminus_0_r.
  + pose i := (j - d_x d - d_bg d)%coq_nat; have il : (i < d_hg d)%coq_nat by rewrite /i; move: jl j1 j2; rewrite /nxbar -?plusE -?minusE; lia.
    have Ej : j = (d_x d + d_bg d + i)%coq_nat by rewrite /i; move: j1 j2; rewrite -?plusE -?minusE; lia.
    have EG : cgrad M X p W j = at_ (ptzg b) i.
      rewrite CG3 Ej; exact: (lag_hg _ _ _ _ _ _ _ _ U Z _ _ _ _ _ _ _ _ Lx Lbg Lhg Lye Lyg Lze i il).
    rewrite EG; have [H|H] := hg_held_dec a i.
      have {H} [H1 H2] : hg_held b i by exact: (proj2 (hg_held_near P a rho mu MG r b Hr NB rmu i il) H).
      have [|_] := bd_slack _ _ _ _ _ _ _ _ CF U (d_bg d + i)%coq_nat; first by move: il; rewrite -/d; lia.
      rewrite -/d Nat.add_assoc => Bu.
      right; right; split; last exact/R_ltP.
      by apply: BY => //; rewrite Ej Bu (xbar_hg P _ _ _ Lx Lbg) // H1.
    left; apply/R_ltP; apply: Rle_lt_trans Tr.
    by have [_ [[_ [_ [_ [_ [_ [_ [_ /(_ i il) H']]]]]]] _]] := NB; move: H'; rewrite /= (ZA il H) Rminus_0_r.
- move=> k; rewrite Enp => /ssrnat.ltP kl; apply/R_ltP; apply: Rle_lt_trans T1.
  have := S2 k kl; congr (Rle (Rabs _) _); symmetry.
  exact: (v_eq _ _ _ _ _ _ _ _ U _ _ _ _ _ _ _ Lx Lbg Lhg Lye Lyg Lze k kl).
- move=> i; rewrite LQ' => il.
  have [/(_ i il) [G1 _] _] := basis_ok WT RU'.
  have RO := room_ok WT RU' il.
  apply: le_lt_trans (ler_add _ RO) _; last exact/R_ltP/T2.
  rewrite /combined; apply: le_trans (ler_norm_sum _ _ _) _.
  apply: (@le_trans _ _ (\sum_(l < ms_ny M + ms_nz M) `|kR (rc rr) i l| * (Rmult K r : RF))).
    apply: ler_sum => l _; rewrite normrM ler_wpmul2l // left_spec; apply/R_leP; exact: left_small.
  rewrite -mulr_suml; apply: ler_wpmul2r; first exact/R_leP.
  by rewrite (sum_big (ms_ny M + ms_nz M) (fun l => `|kR (rc rr) i l|)); apply/R_leP.
Qed.

(** the Newton direction leads closer *)
Lemma near_step w : exists du,
  (w_newton M lus 0 meth failed (w_update part M ech nonfinite w (fin X p W))).2 = fin (vlist (ms_nx M) (mx du)) (vlist (ms_np M) (mp du)) (vlist (ms_ny M + ms_nz M) (mw du)) /\
  near P a (Rmult (Rdiv 8 7) (Rmult kappa (Rplus (Rplus (Rmult C r) (Rmult L (Rmult r r))) (Rmult A rm)))) (moved P b (dir_of P (mx du) (mp du) (mw du))).
Proof.
have [Enx Enp Eny Enz] := EM.
have UT : unique_tangent P b by exact: (unique_near P a kappa L C rho K mu CD SM LP MG k0 L0 r b Hr NB rmu Krmu kLr).
have RDY : newton_ready part M ech lus 0 meth X p W.
  move=> ea wt WT q; split; first exact: LQ.
  move=> rr RU; split; last by rewrite /newton_resolved; case: (meth) NR => // _ k k0'; rewrite mul0r normr_gt0.
  exact: (master_regular HC LC SC th0 CF U B Lx Lbg Lhg Lye Lyg Lze Lq Wq N0 WT RU UT).
have [q [rr [du [[[ea [wt [WT Eq]]] LQ'] HQ RU ED NE]]]] := newton_at nonfinite failed HC HE LUS (lexx _) w RDY.
exists du; split=> //.
have RU' := RU; rewrite Eq in RU'.
have FX j jl := fixed_x HC LC SC th0 CF U B Lx Lbg Lhg Lye Lyg Lze Lq Wq N0 WT RU' (j := j) jl.
have FB j jl := fixed_bg HC LC SC th0 CF U B Lx Lbg Lhg Lye Lyg Lze Lq Wq N0 WT RU' (i := j) jl.
have FH j jl := fixed_hg HC LC SC th0 CF U B Lx Lbg Lhg Lye Lyg Lze Lq Wq N0 WT RU' (i := j) jl.
have T := newton_tangent U NE.
have [T1 [T2 [T3 [T4 [T5 [T6 [T7 [T8 T9]]]]]]]] := tangent_rows _ _ _ _ _ _ _ _ U Z _ Lx Lbg Lhg _ _ _ _ _ _ _ T.
set t := dir_of P _ _ _ in T1 T2 T3 T4 T5 T6 T7 T8 T9 *.
set u := MVec _ _ _ in NE T T2 T4 T5 T6 T7 T8 T9 RU RU'.
set cl := cleaned_by _ _ _ _ _ _ _ _ u rr in NE T T4 T5 T6 T7.
have LAG j : lagrangian (ms_ny M) (ms_nz M) (m_evals M X p) (m_Wx M X p) u j = cgrad M X p W j by rewrite /u lagrangian_spec.
have CG3 j : cgrad M X p W j = Rplus (Rplus (o_fx (ovalue (ms_f M) X p (ms_c M)) j) (Wrapper_spec.sum (ny d) (fun i => Rmult (mget (ms_Ax M) i j) (at_ W i))))
      (Wrapper_spec.sum (nz d) (fun i => Rmult (c_ddx (value (ms_h M) X p (ms_c M)) i j) (at_ W (ny d + i)%coq_nat))) by rewrite /cgrad Eny Enz.
have GX j : (j < d_x d)%coq_nat -> cgrad M X p W j = stab P b j.
  by move=> jl; rewrite CG3; exact: (lag_x _ _ _ _ _ _ _ _ U Z _ _ _ _ _ _ _ _ Lx Lbg Lhg Lye Lyg Lze j jl).
have GB j : (j < d_bg d)%coq_nat -> cgrad M X p W (d_x d + j)%coq_nat = at_ (ptyg b) j.
  by move=> jl; rewrite CG3; exact: (lag_bg _ _ _ _ _ _ _ _ U Z _ _ _ _ _ _ _ _ Lx Lbg Lhg Lye Lyg Lze j jl).
have GH j : (j < d_hg d)%coq_nat -> cgrad M X p W (d_x d + d_bg d + j)%coq_nat = at_ (ptzg b) j.
  by move=> jl; rewrite CG3; exact: (lag_hg _ _ _ _ _ _ _ _ U Z _ _ _ _ _ _ _ _ Lx Lbg Lhg Lye Lyg Lze j jl).
have LE l : constraint_left (ms_nx M) (ms_np M) (ms_ny M) (m_data M X) (m_evals M X p) (m_Wx M X p) (m_Wp M X p) u l = cleft M X p l by exact: left_spec.
have CLB l : (l < ny d + nz d)%coq_nat -> Rle (Rabs (cl l)) (Rmult A rm).
  move=> /ssrnat.ltP; rewrite -Eny -Enz => ll; apply/R_leP; apply: le_trans (cleaned_bound HC HQ RU LQ' ll) _.
  have [_ /(_ l ll) G2] := basis_ok WT RU'.
  apply: (@le_trans _ _ (\sum_(i < ms_ny M + ms_nz M) `|m_Wx M X p l (ix (kjb (rc rr)) i)| * (rm : RF))).
    by apply: ler_sum => i _; rewrite ler_wpmul2l //; exact: (room_ok WT RU').
  rewrite -mulr_suml; apply: ler_wpmul2r; first exact/R_leP.
  rewrite (sum_big (ms_ny M + ms_nz M) (fun i => `|m_Wx M X p l (ix (kjb (rc rr)) i)|)); apply/R_leP.
  by apply: Rle_trans G2; apply: Req_le; apply: sum_ext => i _; rewrite Wx_spec.
have [E1 [E2 [E3 E4]]] := cleft_rows _ _ _ _ _ _ _ _ CF U Z _ Sb.
have [F1 [F2 [F3 [F4 [F5 _]]]]] := proj1 KK; have [SL1 SL2] := SL.
pose eta := Rmult A rm.
have HN := held_near P a rho K mu LP MG r b Hr NB rmu Krmu.
have BN := bg_held_near P a rho mu MG r b Hr NB rmu.
have GN := hg_held_near P a rho mu MG r b Hr NB rmu.
have SE : bounded d (Rmult (Rdiv 8 7) (Rmult kappa (Rplus (Rplus (Rmult C r) (Rmult L (Rmult r r))) eta))) (dadd (diff a b) t).
  apply: (step_error P a kappa L C rho CD SM k0 L0 C0 r b Hr NB kLr SA _ _ _ _ _ YA ZA eta t cl (fun i => cl (d_be d + i)%coq_nat) (fun i => cl (ny d + i)%coq_nat) (fun i => cl (ny d + (d_he d + i))%coq_nat)).
  - exact: F5.
  - by move=> i il; rewrite /left_be F1 //; lra.
  - by move=> i il; rewrite /left_bg SL1 //; lra.
  - by move=> i il; rewrite /left_he [c_val _ _]F3 // Ropp_0.
  - by move=> i il; rewrite /left_hg SL2 //; rewrite /at_hg; lra.
  - exact: Rmult_le_pos.
  - by move=> j jl H; apply: T1 => //; apply/FX => //; exact/HN.
  - move=> j jl H; rewrite T2 // ?LAG ?GX //.
    by move=> /FX-/(_ jl)/HN-/(_ jl).
  - move=> l ll; rewrite T3 //; congr Ropp.
    exact: (v_eq _ _ _ _ _ _ _ _ U _ _ _ _ _ _ _ Lx Lbg Lhg Lye Lyg Lze l ll).
  - by move=> i il; rewrite T4 // LE E1.
  - by move=> i il; rewrite T5 // LE E2.
  - by move=> i il; rewrite T6 // LE E3.
  - by move=> i il; rewrite T7 // LE E4.
  - move=> i il; have [Q1 Q2] := T8 i il; split=> H.
      by apply: Q1; apply/FB => //; exact/BN.
    by rewrite Q2 ?LAG ?GB // => /FB-/(_ il)/BN-/(_ il).
  - move=> i il; have [Q1 Q2] := T9 i il; split=> H.
      by apply: Q1; apply/FH => //; exact/GN.
    by rewrite Q2 ?LAG ?GH // => /FH-/(_ il)/GN-/(_ il).
  - by move=> i il; apply: CLB; move: il; rewrite -/d /ny /nz -?plusE; lia.
  - by move=> i il; apply: CLB; move: il; rewrite -/d /ny /nz -?plusE; lia.
  - by move=> i il; apply: CLB; move: il; rewrite -/d /ny /nz -?plusE; lia.
  - by move=> i il; apply: CLB; move: il; rewrite -/d /ny /nz -?plusE; lia.
have SD := moved_diff P b a t.
have [D1 [D2 [D3 [D4 [D5 [D6 [D7 D8]]]]]]] := SD.
have [S1 [S2 [S3 [S4 [S5 [S6 [S7 S8]]]]]]] := SE.
have [_ [_ [H1 [H2 H3]]]] := NB.
split; first exact: moved_sized.
split; first by do 7?[split=> [i il|]]; [rewrite D1 //; exact: S1 | rewrite D2 //; exact: S2 | rewrite D3 //; exact: S3 | rewrite D4 //; exact: S4 |
  rewrite D5 //; exact: S5 | rewrite D6 //; exact: S6 | rewrite D7 //; exact: S7 | move=> i il; rewrite D8 //; exact: S8].
split; [|split].
- move=> j jl H; rewrite [LHS]tabl_at // (H1 j jl H) (T1 j jl) ?Rplus_0_r //; apply/FX => //; exact/HN.
- move=> i il H; rewrite [LHS]tabl_at // (H2 i il H) (proj1 (T8 i il)) ?Rplus_0_r //; apply/FB => //; exact/BN.
- move=> i il H; rewrite [LHS]tabl_at // (H3 i il H) (proj1 (T9 i il)) ?Rplus_0_r //; apply/FH => //; exact/GN.
Qed.
End Point.
End Local.

(** ** The state made from a point *)
Lemma state_at part d m0 (w : world (list (rawmx RF * rawvec RF))) st b : pt_sized d b ->
  starts_at (of_master part d (finalize m0 w (fin (ptx b ++ ptbg b ++ pthg b) (ptp b) (ptye b ++ ptyg b ++ ptze b ++ ptzg b))) st)
    (ptx b) (ptbg b) (pthg b) (ptp b) (ptye b) (ptyg b) (ptze b) (ptzg b).
Proof.
move=> [L1 [L2 [L3 [L4 [L5 [L6 [L7 L8]]]]]]].
set fz := finalize _ _ _.
have [F1 F2 F3] : [/\ t_x fz = List.map XF (ptx b) ++ List.map XF (ptbg b) ++ List.map XF (pthg b), t_p fz = List.map XF (ptp b) &
   t_w fz = (List.map XF (ptye b) ++ List.map XF (ptyg b)) ++ List.map XF (ptze b) ++ List.map XF (ptzg b)].
  by rewrite /fz /finalize; case: w_res => [rr|]; rewrite /= !List.map_app !List.app_assoc.
have M (l : list R) n : length l = n -> length (List.map XF l) = n by rewrite List.map_length.
rewrite /starts_at /of_master; cbn [s_x s_p s_xbg s_xhg s_ye s_yg s_ze s_zg]; rewrite F1 F2 F3.
have LL (l1 l2 : list R) n k : length l1 = n -> length l2 = k -> length (List.map XF l1 ++ List.map XF l2) = (n + k)%coq_nat by move=> <- <-; rewrite List.app_length !List.map_length.
split; first by apply: head_app; exact: M.
split; first by apply: segment_app; exact: M.
split; first by rewrite List.app_assoc; apply: tail_app; exact: M.
split=> //.
have -> : head (ny d) ((List.map XF (ptye b) ++ List.map XF (ptyg b)) ++ List.map XF (ptze b) ++ List.map XF (ptzg b)) = List.map XF (ptye b) ++ List.map XF (ptyg b) by apply: head_app; exact: LL.
have -> : tail (nz d) ((List.map XF (ptye b) ++ List.map XF (ptyg b)) ++ List.map XF (ptze b) ++ List.map XF (ptzg b)) = List.map XF (ptze b) ++ List.map XF (ptzg b) by apply: tail_app; exact: LL.
by rewrite !head_app ?tail_app //; exact: M.
Qed.
