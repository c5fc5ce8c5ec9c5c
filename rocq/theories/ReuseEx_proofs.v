(** Lemmas for C100_refuted: one linear equality constraint x = 1 and one linear inequality constraint x >= 0, where the
    block of the matrix that is never written holds v. *)
From Coq Require Import List PeanoNat Permutation Reals Lra Lia.
From mathcomp Require Import all_ssreflect all_fingroup all_algebra.
From Verif Require Import Num Num_facts Index_model Index_spec Index_proofs Num_rf R_rf Echelon_model Echelon_spec LU_model LU_spec Linear_model Linear_spec Canonical_model Canonical_spec Canonical_proofs.
From Verif Require Import ResErr_model Residual_model Residual_spec Residual_proofs P_Residual Accept_proofs EchelonO_model EchelonO_spec EchelonO_proofs Stay_proofs.
From Verif Require Import Loop_model Loop_spec Loop_proofs P_Loop Wrapper_model Wrapper_spec Wrapper_proofs P_Wrapper End_model End_spec Near_proofs End_proofs.
From Verif Require Import Newton_model Newton_spec Newton_proofs Exact_spec Exact_proofs P_Newton P_End P_EchelonO QuadRun_proofs.
Set Implicit Arguments.
Unset Strict Implicit.
Unset Printing Implicit Defensive.
Import Order.TTheory GRing.Theory Num.Theory.
Local Open Scope ring_scope.
Local Notation "l ++ l'" := (List.app l l') : seq_scope.

Definition fzero : ofun R := fun _ _ _ r => r.
Definition czero100 : cfun R := fun _ _ _ r => r.
(** two variables, two equality constraints: x0 - x1 = 0, x1 = 0 *)
Definition P100a : problem R xreal := Problem (Dims 2 0 2 0 0 0 0) None (Some fzero) (Some czero100) (Some czero100) (Some czero100)
  (fun i j => match i, j with 0%N, 0%N => R1 | 0%N, 1%N => Ropp R1 | 1%N, 1%N => R1 | _, _ => R0 end) mzeros mzeros mzeros (R0 :: R0 :: nil) nil
  (XNInf :: XNInf :: nil) (XPInf :: XPInf :: nil) nil nil nil mzeros mzeros.
(** one variable, x = 1 and x >= 0 *)
Definition P100 : problem R xreal := Problem (Dims 1 0 1 1 0 0 0) None (Some fzero) (Some czero100) (Some czero100) (Some czero100)
  (fun i j => R1) mzeros (fun i j => R1) mzeros (R1 :: nil) (R0 :: nil)
  (XNInf :: nil) (XPInf :: nil) nil nil nil mzeros mzeros.

Section Run100.
Variables (v : R) (f1 f2 f3 : nat -> R) (oAx oAp obc : mat R) (M : master R xreal).
Hypothesis v0 : Rle v 0.
Hypothesis U : update_master f1 f2 f3 oAx oAp obc P100 = Some M.
Hypothesis Ev : mget (ms_Ax M) 0 1 = v.
Variable part : partition_impl.
Hypothesis HC : partition_contract part.

Lemma EM100 : [/\ ms_nx M = 2%N, ms_np M = 0%N, ms_ny M = 2%N & ms_nz M = 0%N].
Proof. by rewrite (Meq _ _ _ _ _ _ _ _ U). Qed.
Definition w100 (i j : nat) : RF := match i, j with 0%N, 1%N => v | _, _ => R1 end.
Lemma W100 z p i j : (i < 2)%N -> (j < 2)%N -> m_Wx M z p i j = w100 i j.
Proof.
have [_ _ E3 _] := EM100 => il jl; rewrite /m_Wx E3 il /=.
have A i' j' : (i' < 2)%N -> (j' < 2)%N -> (i' == 0%N) && (j' == 1%N) = false -> mget (ms_Ax M) i' j' = R1.
  rewrite (Meq _ _ _ _ _ _ _ _ U); cbn [ms_Ax]; rewrite /master_Ax /mresize.
  by case: (Nat.eqb _ (Nat.mul (m_rows oAx) (m_cols oAx))); case: i' => [|[|i']] //; case: j' => [|[|j']].
by case: i il => [|[|i]] // _; case: j jl => [|[|j]] // _; rewrite ?Ev ?A.
Qed.
Lemma sum2 (f : nat -> RF) : \sum_(j < 2) f j = f 0%N + f 1%N. Proof. by rewrite !big_ord_recl big_ord0 addr0. Qed.
Lemma sum20 (f : nat -> RF) : \sum_(j < 2 + 0) f j = f 0%N + f 1%N. Proof. by rewrite !big_ord_recl big_ord0 addr0. Qed.

Let s' : R := Ropp (Rdiv 1 (Rminus 1 v)).
Let x' : R := Rdiv 1 (Rminus 1 v).
Lemma sol100 : Rplus x' (Rmult v s') = R1 /\ Rplus x' s' = R0.
Proof. by rewrite /x' /s'; split; field; lra. Qed.

Variables (lu : lu_impl RF) (srt : sort_impl RF) (th sigma : RF).
Hypothesis LC : lu_correct lu.
Hypothesis SC : sort_correct srt.
Hypothesis th0 : 0 <= th.
Notation ech := (the_ech lu srt th sigma M).

Lemma HE100 : ech_contract M ech.
Proof. exact: C83_contract. Qed.
Lemma LQ100 h (X : list R) wt : length (qjb (ech h (m_Wx M X nil) (m_Wp M X nil) wt).2) = 2%N.
Proof.
have [E1 E2 E3 E4] := EM100.
have [_ -> _ _] := @C82_echelonizer RF lu srt th sigma (ms_ny M) (ms_nx M) (ms_nz M) (ms_np M) (fun i j => mget (ms_Ax M) i j) h (m_Wx M X nil) (m_Wp M X nil) wt
  (rf_master (m_evals M X nil) (m_Wx M X nil) (m_Wp M X nil) nil) LC SC th0 (@top_rows M X nil) (erefl _) (erefl _).
rewrite E1 E3 E4 addn0 full_rank // => f H.
have := H 0%N ltac:(lia); have := H 1%N ltac:(lia); cbn [Wrapper_spec.sum]; rewrite !W100 // /w100 => H1 H0.
have F1 : f 1%N = R0.
  have F0 : f 0%N = Ropp (f 1%N) by lra.
  have : Rmult (Rminus 1 v) (f 1%N) = R0 by rewrite F0 in H1; lra.
  by move/Rmult_integral => [|//] => ?; exfalso; lra.
by case=> [|[|l]] Hl; [lra | exact: F1 | exfalso; lia].
Qed.

Section Point.
Variables (X w : list R) (q : rwq RF) (r : residual RF).
Let u := MVec (vec X : rawvec RF) (vec nil : rawvec RF) (vec w : rawvec RF).
Let e := m_evals M X nil.
Hypothesis HQ : echelon_of (ms_nx M) (ms_np M) (ms_ny M + ms_nz M) e (m_Wx M X nil) (m_Wp M X nil) q.
Hypothesis RU : rf_update part (ms_nx M) (ms_np M) (ms_ny M) (ms_nz M) (m_data M X) e (m_Wx M X nil) (m_Wp M X nil) q u = Some r.
Hypothesis LQ : length (qjb q) = 2%N.

(** both variables are basic *)
Lemma stable100 j : (j < 2)%N -> ~ In j (status_ju (rst r)).
Proof.
move=> jl; have [E1 E2 E3 E4] := EM100.
have [_ _ JB _] := @rf_ju _ _ _ _ _ _ (m_data M X) _ _ _ _ u HC HQ.
have -> : rst r = rf_stability part (ms_nx M) (ms_ny M) (ms_nz M) (m_data M X) e (m_Wx M X nil) (qjb q) u.
  by move: RU; rewrite /rf_update; case: canonicalize => // c' [<-].
apply: JB.
have [PQ _ _ _] := HQ nil.
have LN : qjn q = nil.
  have := Permutation_length PQ; rewrite /indices List.app_length List.seq_length LQ E1; case: (qjn q) => //= a l; lia.
have PI : Permutation (indices (ms_nx M)) (qjb q) by move: PQ; rewrite LN List.app_nil_r.
apply: (Permutation_in _ PI); rewrite /indices E1; apply/in_seq; split; [exact: Nat.le_0_l | exact/ssrnat.ltP].
Qed.

Lemma lag100 j : (j < 2)%N -> lagrangian (ms_ny M) (ms_nz M) e (m_Wx M X nil) u j = w100 0 j * vec w 0%N + w100 1 j * vec w 1%N.
Proof.
have [E1 E2 E3 E4] := EM100.
move=> jl; rewrite /lagrangian E3 E4 (sum20 (fun l => m_Wx _ _ _ l j * _ l)) !W100 // /e /= /m_f (Meq _ _ _ _ _ _ _ _ U) /= /master_f /ocall /=.
by case: ifP => _; rewrite add0r.
Qed.
Lemma left100 l : (l < 2)%N -> constraint_left (ms_nx M) (ms_np M) (ms_ny M) (m_data M X) e (m_Wx M X nil) (m_Wp M X nil) u l =
  (if l == 0%N then 1 else 0) - (w100 l 0 * vec X 0%N + w100 l 1 * vec X 1%N).
Proof.
have [E1 E2 E3 E4] := EM100.
move=> ll; rewrite /constraint_left E1 E2 E3 ll big_ord0 (sum2 (fun j => m_Wx _ _ _ l j * _ j)) !W100 //= subr0 (Meq _ _ _ _ _ _ _ _ U) /=.
by case: l ll => [|[|l]].
Qed.

Lemma nocancel100 i : (i < 2)%N ->
  no_cancellation (ms_ny M) (ms_nz M) (kR (rc r)) (rv_awstar (ms_np M) (ms_ny M) (m_data M X) e (rM r) (rc r) u) i.
Proof.
have [E1 E2 E3 E4] := EM100 => il.
have AW l : (l < 2)%N -> rv_awstar (ms_np M) (ms_ny M) (m_data M X) e (rM r) (rc r) u l = if l == 0%N then 1 else 0.
  move=> lm; rewrite /rv_awstar E3 lm.
  have [EMr CV _] := rf_update_view HC HQ RU.
  rewrite big_seq big1; last first.
    move=> j jl; exfalso; have jl' : In j (kju (rc r)) by apply/mem_In.
    have RS : rst r = rf_stability part (ms_nx M) (ms_ny M) (ms_nz M) (m_data M X) e (m_Wx M X nil) (qjb q) u.
      by move: RU; rewrite /rf_update; case: canonicalize => // c' [<-].
    have ju : In j (status_ju (rst r)) by move/(cv_unstable CV): jl'; rewrite EMr RS.
    have jn : (j < 2)%N.
      have [_ RG _ _] := @rf_ju _ _ _ _ _ _ (m_data M X) _ _ _ _ u HC HQ.
      by rewrite -E1; apply: RG; rewrite -RS.
    exact: stable100 jn ju.
  by rewrite subr0 /= /vec (Meq _ _ _ _ _ _ _ _ U) /=; case: l lm => [|[|]].
right; set aw := rv_awstar _ _ _ _ _ _ _ in AW *.
rewrite /roundoff E3 E4.
rewrite (sum20 (fun l => `|kR (rc r) i l| * `|aw l|)) (sum20 (fun l => kR (rc r) i l * aw l)) !AW //= !mulr0 !mulr1 !addr0 normr0 normr1 mulr0 mulr1 addr0.
have G' (F : realFieldType) (z : F) : (2 ^+ 52)^-1 * `|z| <= `|z|.
  by apply: ler_pimull => //; rewrite invf_le1 ?exprn_ege1 ?exprn_gt0 ?ler1n ?ltr0n.
exact: G'.
Qed.

(** the Newton equations *)
Lemma eqs100 a0 c du : newton_eqs (ms_nx M) (ms_np M) (ms_ny M + ms_nz M) e (m_Wx M X nil) (m_Wp M X nil) (fun j => In j (status_ju (rst r))) a0 (fun _ => 0) c du ->
  [/\ w100 0 0 * mw du 0%N + w100 1 0 * mw du 1%N = a0 0%N, w100 0 1 * mw du 0%N + w100 1 1 * mw du 1%N = a0 1%N,
      w100 0 0 * mx du 0%N + w100 0 1 * mx du 1%N = c 0%N & w100 1 0 * mx du 0%N + w100 1 1 * mx du 1%N = c 1%N].
Proof.
have [E1 E2 E3 E4] := EM100; rewrite E1 E2 E3 E4.
move=> [N1 N2 _ N4].
have HX i j : eHxx e i j = 0.
  by rewrite /e /= /m_f (Meq _ _ _ _ _ _ _ _ U) /= /master_f /ocall /=; case: ifP.
have Q0 := N2 0%N isT (stable100 (j := 0%N) isT); have Q1 := N2 1%N isT (stable100 (j := 1%N) isT); have Q2 := N4 0%N isT; have Q3 := N4 1%N isT.
move: Q0 Q1 Q2 Q3.
rewrite (sum2 (fun j => eHxx _ 0%N j * mx du j)) (sum2 (fun j => eHxx _ 1%N j * mx du j)) (sum2 (fun j => m_Wx _ _ _ 0%N j * mx du j)) (sum2 (fun j => m_Wx _ _ _ 1%N j * mx du j)).
rewrite (sum20 (fun l => m_Wx _ _ _ l 0%N * mw du l)) (sum20 (fun l => m_Wx _ _ _ l 1%N * mw du l)) !big_ord0 !HX !W100 //.
by rewrite !(mul0r, addr0, add0r).
Qed.

Lemma regular100 : regular (ms_nx M) (ms_np M) (ms_ny M + ms_nz M) e (m_Wx M X nil) (m_Wp M X nil) (fun j => In j (status_ju (rst r))).
Proof.
have [E1 E2 E3 E4] := EM100 => du /eqs100; rewrite /w100 ?R_mulE ?R_addE -?[0]/R0 -?[1]/R1 => -[Q1 Q2 Q3 Q4].
have Z (a b : R) : Rplus a b = R0 -> Rplus (Rmult v a) b = R0 -> a = R0.
  move=> A B; have : Rmult (Rminus 1 v) a = R0 by lra.
  by move/Rmult_integral => [|//] => ?; exfalso; lra.
have Z' (a b : R) : Rplus a (Rmult v b) = R0 -> Rplus a b = R0 -> b = R0.
  move=> A B; have : Rmult (Rminus 1 v) b = R0 by lra.
  by move/Rmult_integral => [|//] => ?; exfalso; lra.
have W0 : mw du 0%N = R0 by apply: (Z _ (mw du 1%N)); lra.
have X1 : mx du 1%N = R0 by apply: (Z' (mx du 0%N)); lra.
rewrite E1 E2 E3 E4; split=> [[|[|i]]|k|[|[|l]]] // _; rewrite -?[0]/R0; lra.
Qed.
End Point.

(** the Newton step leads to (x', s') and multipliers zero *)
Lemma newton100 nonfinite lus meth failed (wd : world _) (a b y0 y1 : R) : let X := a :: b :: nil in
  (forall n (A : 'M[RF]_n), full_piv A (lus n A)) -> meth <> Rangespace ->
  exists dx dw, (w_newton M lus 0 meth failed (w_update part M ech nonfinite wd (fin X nil (y0 :: y1 :: nil)))).2 = fin dx nil dw /\ length dx = 2%N /\ length dw = 2%N /\
    (forall i, (i < 2)%coq_nat -> Rplus (List.nth i X R0) (List.nth i dx R0) = List.nth i (x' :: s' :: nil) R0) /\
    (forall i, (i < 2)%coq_nat -> Rplus (List.nth i (y0 :: y1 :: nil) R0) (List.nth i dw R0) = List.nth i (R0 :: R0 :: nil) R0).
Proof.
move=> X LUS NR; have [E1 E2 E3 E4] := EM100.
have [q [r [[h [wt [WT Eq]]] HQ RU R1' _]]] := w_update_fin nonfinite wd X nil (y0 :: y1 :: nil) HC HE100.
have LQ2 : length (qjb q) = 2%N by rewrite Eq; exact: LQ100.
have LQ : length (qjb q) = (ms_ny M + ms_nz M)%N by rewrite LQ2 E3 E4.
have RG := regular100 HQ RU LQ2.
have NRS : newton_resolved lus 0 meth (ms_np M) r.
  by rewrite /newton_resolved; case: (meth) NR => // _ k k0; rewrite mul0r normr_gt0.
have CL i : (i < ms_ny M + ms_nz M)%N -> no_cancellation (ms_ny M) (ms_nz M) (kR (rc r)) (rv_awstar (ms_np M) (ms_ny M) (m_data M X) (m_evals M X nil) (rM r) (rc r) (MVec (vec X : rawvec RF) (vec nil : rawvec RF) (vec (y0 :: y1 :: nil) : rawvec RF))) i.
  by move=> il; apply: (nocancel100 HQ RU LQ2); rewrite E3 E4 in il.
have [du ED ND] := newton_ok LUS (lexx _) HC HQ RU LQ RG NRS (fun _ => 0).
have EN : w_newton M lus 0 meth failed (w_update part M ech nonfinite wd (fin X nil (y0 :: y1 :: nil))) =
   (w_update part M ech nonfinite wd (fin X nil (y0 :: y1 :: nil)), UVec (List.map XF (vlist (ms_nx M) (mx du))) (List.map XF (vlist (ms_np M) (mp du))) (List.map XF (vlist (ms_ny M + ms_nz M) (mw du)))).
  by rewrite /w_newton R1' ED.
have ND' : newton_eqs (ms_nx M) (ms_np M) (ms_ny M + ms_nz M) (m_evals M X nil) (m_Wx M X nil) (m_Wp M X nil) (fun j => In j (status_ju (rst r)))
     (fun i => - lagrangian (ms_ny M) (ms_nz M) (m_evals M X nil) (m_Wx M X nil) (MVec (vec X : rawvec RF) (vec nil : rawvec RF) (vec (y0 :: y1 :: nil) : rawvec RF)) i) (fun k => 0)
     (constraint_left (ms_nx M) (ms_np M) (ms_ny M) (m_data M X) (m_evals M X nil) (m_Wx M X nil) (m_Wp M X nil) (MVec (vec X : rawvec RF) (vec nil : rawvec RF) (vec (y0 :: y1 :: nil) : rawvec RF))) du.
  case: ND => N1 N2 N3 N4; split=> //; first by rewrite E2.
  by move=> l ll; rewrite N4 // (cleaned_exact HC HQ RU LQ CL) addr0.
have [] := eqs100 HQ RU LQ2 ND'; rewrite !lag100 // !left100 // /w100 /vec /= ?R_mulE ?R_addE ?R_oppE -?[0]/R0 -?[1]/R1 => Q1 Q2 Q3 Q4.
exists (vlist 2 (mx du)), (vlist 2 (mw du)).
rewrite EN E1 E2 E3 E4 !length_vlist; do 3![split=> //].
have [S1 S2] := sol100.
have Z (c d : R) : Rmult (Rminus 1 v) c = Rmult (Rminus 1 v) d -> c = d by move=> H; apply: (Rmult_eq_reg_l (Rminus 1 v)) => //; lra.
have B1 : Rplus b (mx du 1%N) = s' by apply: Z; lra.
have B0 : Rplus a (mx du 0%N) = x' by lra.
have Y0 : Rplus y0 (mw du 0%N) = R0 by apply: Z; lra.
have Y1 : Rplus y1 (mw du 1%N) = R0 by lra.
by split=> -[|[|i]] /= Hi //; exfalso; lia.
Qed.

(** the error there is zero *)
Lemma err100 nonfinite wd tol : Rlt 0 tol ->
  nltb (w_err (w_update part M ech nonfinite wd (fin (x' :: s' :: nil) nil (R0 :: R0 :: nil)))) (XF tol) = true.
Proof.
have [E1 E2 E3 E4] := EM100; set X := x' :: _ => t0.
have [q [r [[a [wt [WT Eq]]] HQ RU _ ->]]] := w_update_fin nonfinite wd X nil (R0 :: R0 :: nil) HC HE100.
have LQ2 : length (qjb q) = 2%N by rewrite Eq; exact: LQ100.
rewrite /= /rltb; case: Rlt_dec => // -[]; apply/R_ltP.
have [S1 S2] := sol100.
apply: (exact_error HC HQ RU).
- by apply/R_ltP.
- by rewrite E1 => i il; rewrite lag100 // /vec /= !mulr0 addr0.
- by rewrite E2.
- move=> l; have -> : (ms_ny M + ms_nz M)%N = 2%N by rewrite E3 E4.
  move=> ll; rewrite left100 // /X /vec; case: l ll => [|[|l]] // _; rewrite /w100 /= ?R_mulE ?R_addE ?R_oppE -?[0]/R0 -?[1]/R1; lra.
- by rewrite LQ2 => i il; apply: (nocancel100 HQ RU LQ2).
Qed.

(** one iteration, success *)
Lemma run100 nonfinite lus meth failed check fuel o w0 hist m st tol (a b y0 y1 : R) :
  (forall n (A : 'M[RF]_n), full_piv A (lus n A)) -> meth <> Rangespace -> Rle b 0 ->
  starts_at st (a :: nil) (b :: nil) nil nil (y0 :: nil) (y1 :: nil) nil nil -> o_tol o = XF tol -> Rlt 0 tol -> (1 <= o_maxiters o)%coq_nat ->
  exists r st', u_solve part ech nonfinite (w_newton M lus 0 meth failed) None check (S fuel) o f1 f2 f3 oAx oAp obc w0 hist m P100 st = Some (r, st') /\
    r_succeeded r = true /\ r_iterations r = 1%N /\ starts_at st' (Rdiv 1 (Rminus 1 v) :: nil) (Ropp (Rdiv 1 (Rminus 1 v)) :: nil) nil nil (R0 :: nil) (R0 :: nil) nil nil.
Proof.
move=> LUS NR b0 ST TOL T MX.
have NW wd := @newton100 nonfinite lus meth failed wd a b y0 y1 LUS NR.
have LB : [/\ xlo (m_bounds M) = XNInf :: XNInf :: nil, xhi (m_bounds M) = XPInf :: XF R0 :: nil, plo (m_bounds M) = nil & phi_ (m_bounds M) = nil] by rewrite (Meq _ _ _ _ _ _ _ _ U).
have [B1 B2 B3 B4] := LB.
have IN c d : Rle d 0 -> all_inside (XNInf :: XNInf :: nil) (XPInf :: XF R0 :: nil) (c :: d :: nil).
  move=> d0 [|[|i]] /= Hi; try (exfalso; lia); split=> //=; rewrite /rleb; case: Rle_dec => //.
have s0 : Rle s' 0.
  by rewrite /s'; have : Rlt 0 (Rdiv 1 (Rminus 1 v)); [apply: Rdiv_lt_0_compat; lra | lra].
have [|||||||||||||r [S [Us _]]] := @solve_one_step _ (w_update part M ech nonfinite) (fun w _ => w_err w) (w_newton M lus 0 meth failed) check (m_bounds M) o
   (a :: b :: nil) nil (y0 :: y1 :: nil) (x' :: s' :: nil) nil (R0 :: R0 :: nil) _ _ _ _ _ _ _ _ _ _ _ _ _ MX fuel w0 hist; rewrite ?B1 ?B2 ?B3 ?B4 //.
- exact: IN.
- by move=> i /= Hi; exfalso; lia.
- exact: IN.
- by move=> i /= Hi; exfalso; lia.
- move=> wd; have [dx [dw [H1 [H2 [H3 [H4 H5]]]]]] := NW wd.
  exists dx, nil, dw; do 5![split=> //]; split=> //.
  by move=> i /= Hi; exfalso; lia.
- by move=> wd; rewrite TOL; apply: err100.
have [st' [S' H]] := @lift_run part _ ech nonfinite (w_newton M lus 0 meth failed) None check fuel.+1 o f1 f2 f3 oAx oAp obc w0 hist m P100 M st
  (a :: nil) (b :: nil) nil nil (y0 :: nil) (y1 :: nil) nil nil (x' :: nil) (s' :: nil) nil nil (R0 :: nil) (R0 :: nil) nil nil _ r U ST erefl erefl erefl erefl erefl erefl erefl S Us.
by exists (Result true 1 nzero), st'.
Qed.
End Run100.
