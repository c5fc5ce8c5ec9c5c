(** A case for C86, and the refutation for nonlinear constraints. *)
From Coq Require Import List PeanoNat Permutation Reals Lra Lia.
From Coquelicot Require Import Coquelicot.
From mathcomp Require Import all_ssreflect all_algebra.
From Verif Require Import Num Num_facts Index_model Index_spec Index_proofs Num_rf R_rf Echelon_model Echelon_spec LU_model LU_spec Linear_model Linear_spec Canonical_model Canonical_spec.
From Verif Require Import ResErr_model Residual_model Residual_spec EchelonO_model EchelonO_spec EchelonOEx_proofs P_Newton Loop_model Loop_spec Wrapper_model Wrapper_spec Wrapper_proofs P_Wrapper.
From Verif Require Import End_model End_spec Indep_proofs End_proofs P_End P_EchelonO Pivot_spec Pivot_proofs Status_spec SensW_model SensW_spec SensW_proofs SensWEx_proofs P_SensW.
Set Implicit Arguments.
Unset Strict Implicit.
Unset Printing Implicit Defensive.
Import Order.TTheory GRing.Theory Num.Theory.
Local Open Scope ring_scope.
Local Notation "l ++ l'" := (List.app l l') : seq_scope.

Lemma sum_0 n f : (forall i, (i < n)%coq_nat -> f i = R0) -> Wrapper_spec.sum n f = R0.
Proof. by elim: n => [|n IH] H //=; rewrite IH ?H; [rewrite Rplus_0_l | lia | move=> i il; apply: H; lia]. Qed.
(** At the origin with zero right-hand sides the level of round-off is zero. *)
Lemma room0 M X p V i : (forall l, (l < ms_ny M + ms_nz M)%coq_nat -> ctarget M X p l = R0) ->
  (forall j, at_ X j = R0) -> (forall j, at_ p j = R0) -> row_room M X p V i = R0.
Proof.
move=> H1 H2 H3; rewrite /row_room sum_0 ?Rmult_0_r // => l ll.
rewrite /cmag H1 // Rabs_R0 !sum_0 ?Rplus_0_l ?Rmult_0_r // => j _; by rewrite ?H2 ?H3 Rabs_R0 Rmult_0_r.
Qed.

(** The calculations start from a state at the point a; the Newton direction is zero (the point is
    a solution, C81). *)
Definition state_of (P : problem R xreal) (a : upoint) : ustate xreal :=
  UState (p_dims P) (List.map XF (ptx a)) (List.map XF (ptp a)) (List.map XF (ptye a)) (List.map XF (ptyg a)) (List.map XF (ptze a)) (List.map XF (ptzg a))
    nil (List.map XF (ptbg a)) (List.map XF (pthg a)) nil nil nil nil nil nil.
Definition no_step (P : problem R xreal) (w : world (list (rawmx RF * rawvec RF))) : world (list (rawmx RF * rawvec RF)) * uvec xreal :=
  let d := p_dims P in (w, fin (repeat R0 (nxbar d)) (repeat R0 (d_p d)) (repeat R0 (ny d + nz d))).
(** what the memory of the matrices held before *)
Definition col5 : Sens_model.sens RF := Sens_model.Sens (fun _ => IZR 5) (fun _ => IZR 5) (fun _ => IZR 5) (fun _ => IZR 5).
Definition run86 lu srt (lus : forall n, 'M[RF]_n -> lufac RF n) M (P : problem R xreal) (a : upoint) :=
  u_solve_sens lus 0 (fun _ _ => IZR 5) (fun _ => col5) libstdcxx_partition (the_ech lu srt code_threshold 0 M) (fun h _ => (h, XNaN)) (no_step P) None None 1
    (Options 5 (XF R1) false) mem7 mem7 mem7 old7 old7 old7 w83 nil m0 P (state_of P a).

Section Run.
Variables (P : problem R xreal) (a : upoint).
Let d := p_dims P.
Let st := state_of P a.
Let newton := no_step P.
(** A calculation that starts from a solution at the origin *)
Lemma run_from (srt : sort_impl RF) (lu : lu_impl RF) (lus : forall n, 'M[RF]_n -> lufac RF n) M :
  lu_correct lu -> sort_correct srt -> (forall n (A : 'M[RF]_n), full_piv A (lus n A)) ->
  conforming P -> ordered_bounds P -> block_unspoiled mem7 old7 d -> update_master mem7 mem7 mem7 old7 old7 old7 P = Some M ->
  length (p_c P) = d_c d -> length (ptp a) = d_p d -> state_sized d st -> (0 < d_be d + d_bg d + d_he d + d_hg d)%coq_nat ->
  independent_equalities P (ptx a) (ptp a) -> licq P (ptx a) (ptbg a) (pthg a) (ptp a) -> well_pivoted code_threshold M (ptx a ++ ptbg a ++ pthg a) (ptp a) -> unique_tangent P a ->
  user_kkt P (ptx a) (ptp a) (ptye a) (ptyg a) (ptze a) (ptzg a) -> slacks P (ptx a) (ptp a) (ptbg a) (pthg a) ->
  (forall l, (l < ms_ny M + ms_nz M)%coq_nat -> ctarget M (ptx a ++ ptbg a ++ pthg a) (ptp a) l = R0) ->
  (forall j, at_ (ptx a ++ ptbg a ++ pthg a) j = R0) -> (forall j, at_ (ptp a) j = R0) ->
  exists r st' S,
    run86 lu srt lus M P a = Some (r, st', S) /\
    r_succeeded r = true /\ starts_at st' (ptx a) (ptbg a) (pthg a) (ptp a) (ptye a) (ptyg a) (ptze a) (ptzg a) /\
    sens_shaped d (d_c d) S /\ forall k, (k < d_c d)%coq_nat -> c_tangent P a k (sens_dir S k).
Proof.
move=> LC SC LUS CF OB BU U Lc Lp SS N0 IE LI WPV UT K SL H1 H2 H3.
have th0 : (0 : RF) <= code_threshold by apply: ltW; apply/R_ltP; case: code_threshold_range.
have [||||r [st' [S [OK [_ ST]]]]] := @C83_kkt_accepted_partial libstdcxx_partition lu srt code_threshold 0 (fun h _ => (h, XNaN)) newton None 0
  (Options 5 (XF R1) false) mem7 mem7 mem7 old7 old7 old7 w83 nil m0 P M st R1 (ptx a) (ptbg a) (pthg a) (ptp a) (ptye a) (ptyg a) (ptze a) (ptzg a)
  libstdcxx_contract LC SC th0 CF OB BU U N0 IE _ SS Lp _ K SL _ erefl Rlt_0_1.
- by move=> h wt _ q i _; rewrite room0 //; exact: Rlt_0_1.
- by repeat split.
- by [].
- by rewrite /=; lia.
have [||||T [E [H4 H5]]] := @C86_equations_partial libstdcxx_partition lu srt code_threshold 0 lus 0 (fun _ _ => IZR 5) (fun _ => col5)
  (fun h _ => (h, XNaN)) newton None None 1 (Options 5 (XF R1) false) mem7 mem7 mem7 old7 old7 old7 w83 nil m0 P M st r st' (ptx a) (ptbg a) (pthg a) (ptp a) (ptye a) (ptyg a) (ptze a) (ptzg a)
  libstdcxx_contract LC SC th0 LUS (lexx _) CF OB BU U Lc SS _ _ _ S ST N0 LI WPV _ (fun _ _ _ _ _ _ => @resolved_exact _ _ _ _ _ _ _).
- by rewrite /= List.map_length Lp.
- by move=> w; rewrite /sized /= !List.map_length !repeat_length.
- by [].
- by move: UT; case: (a).
by exists r, st', T; split=> //; do 3![split=> //]; move: H5; case: (a).
Qed.
End Run.

(** ** A case: min (x0^2 + x1^2)/2 + x2 subject to x0 + x1 = c, x2 >= 0, at c = 0, from its
    solution.  The path of solutions is (t/2, t/2, 0) with multiplier -t/2. *)
Example C86_case : licq P86 (ptx a86) nil nil nil /\ unique_tangent P86 a86 /\ right_derivatives P86 0 a86 /\ steady_jacobians P86 0 a86 /\
  solution_path P86 0 a86 path86 (fun s => s :: nil) (fun _ => nil) t86 /\
  exists lu srt lus M r st' S, lu_correct lu /\ sort_correct srt /\ (forall n (A : 'M[RF]_n), full_piv A (lus n A)) /\
    conforming P86 /\ ordered_bounds P86 /\ update_master mem7 mem7 mem7 old7 old7 old7 P86 = Some M /\
    run86 lu srt lus M P86 a86 = Some (r, st', S) /\ r_succeeded r = true /\ same_dir (p_dims P86) (sens_dir S 0) t86.
Proof.
split; first exact: licq86.
split; first exact: unique86.
split; first exact: right86.
split; first exact: steady86.
split; first exact: path86_ok.
have [lu LC] := lu_correct_exists RF; have [srt SC] := sort_correct_exists RF; have [lus LUS] := lu_exists RF.
have OB : ordered_bounds P86 by split=> //; split; repeat constructor.
have BU : block_unspoiled mem7 old7 (p_dims P86) by right; left.
have CF : conforming P86 by repeat split.
case U: (update_master mem7 mem7 mem7 old7 old7 old7 P86) => [M|//].
have X0 j : at_ (ptx a86 ++ ptbg a86 ++ pthg a86) j = R0 by case: j => [|[|[|[|j]]]].
have [||||||||r [st' [S [E [OK [_ [_ T]]]]]]] := @run_from P86 a86 srt lu lus M LC SC LUS CF OB BU U erefl erefl _ _ _ licq86 _ unique86 _ _ _ X0 _.
- by repeat split.
- by apply/ssrnat.ltP.
- exact: licq_independent licq86.
- apply: well_pivoted_row; [exact: (proj2 code_threshold_range) | by rewrite (Meq _ _ _ _ _ _ _ _ U) |].
  rewrite (Meq _ _ _ _ _ _ _ _ U) /m_Wx; case=> [|[|[|j]]] H; [by right; exact: Rabs_R1 | by right; exact: Rabs_R1 | by left | by move: H => /ssrnat.ltP].
- exact: kkt86.
- by split=> i /=; lia.
- case=> [|l]; rewrite (Meq _ _ _ _ _ _ _ _ U) //=; by [|lia].
- by case.
exists lu, srt, lus, M, r, st', S; do 8![split=> //].
have T0 := T 0%N ltac:(rewrite /=; lia).
have T1 := path_tangent P86 0 a86 _ _ _ _ ltac:(rewrite /=; lia) right86 steady86 path86_ok.
exact: (tangent_unique _ _ _ _ _ _ _ _ _ _ unique86 T0 T1).
Qed.

(** ** Nonlinear constraints.  min x1 + x0^2/2 - c x0 subject to x1 = x0^2: the solutions are x0 = c/3,
    so dx0/dc = 1/3.  The equations of C86 leave out the second derivatives of the constraints, and the
    solver returns 1. *)
Theorem C86_nonlinear_refuted : licq P86n (ptx a86n) nil nil nil /\ unique_tangent P86n a86n /\ right_derivatives P86n 0 a86n /\
  solution_path P86n 0 a86n path86n (fun _ => nil) (fun _ => nil) t86n /\
  (forall s x, c_val (value (uhe P86n) x nil (s :: nil)) 0 = R0 ->
     Rle (o_f (ovalue (uf P86n) (ptx (path86n s)) nil (s :: nil))) (o_f (ovalue (uf P86n) x nil (s :: nil)))) /\
  dx t86n 0%N = Rinv (IZR 3) /\
  exists lu srt lus M r st' S, lu_correct lu /\ sort_correct srt /\ (forall n (A : 'M[RF]_n), full_piv A (lus n A)) /\
    conforming P86n /\ ordered_bounds P86n /\ update_master mem7 mem7 mem7 old7 old7 old7 P86n = Some M /\
    run86 lu srt lus M P86n a86n = Some (r, st', S) /\ r_succeeded r = true /\
    starts_at st' (ptx a86n) nil nil nil nil nil (IZR (-1) :: nil) nil /\ ent (e_xc S) 0 0 = R1.
Proof.
split; first exact: licq86n.
split; first exact: unique86n.
split; first exact: right86n.
split; first exact: path86n_ok.
split; first exact: path86n_min.
split; first by [].
have [lu LC] := lu_correct_exists RF; have [srt SC] := sort_correct_exists RF; have [lus LUS] := lu_exists RF.
have OB : ordered_bounds P86n by split=> //; split; repeat constructor.
have BU : block_unspoiled mem7 old7 (p_dims P86n) by right; left.
have CF : conforming P86n by repeat split.
case U: (update_master mem7 mem7 mem7 old7 old7 old7 P86n) => [M|//].
have X0 j : at_ (ptx a86n ++ ptbg a86n ++ pthg a86n) j = R0 by case: j => [|[|[|j]]].
have [||||||||r [st' [S [E [OK [ST [_ T]]]]]]] := @run_from P86n a86n srt lu lus M LC SC LUS CF OB BU U erefl erefl _ _ _ licq86n _ unique86n _ _ _ X0 _.
- by repeat split.
- by apply/ssrnat.ltP.
- exact: licq_independent licq86n.
- apply: well_pivoted_row; [exact: (proj2 code_threshold_range) | by rewrite (Meq _ _ _ _ _ _ _ _ U) |].
  rewrite (Meq _ _ _ _ _ _ _ _ U) /m_Wx; case=> [|[|j]] H; [left | right | by move: H => /ssrnat.ltP].
    by rewrite /= /m_h /= /at_ /=; lra.
  by rewrite /= /m_h /=; exact: Rabs_R1.
- exact: kkt86n.
- by split=> i /=; lia.
- case=> [|l] H; last by exfalso; move: H; rewrite (Meq _ _ _ _ _ _ _ _ U) /= => /ssrnat.ltP.
  by rewrite (Meq _ _ _ _ _ _ _ _ U) /ctarget /= /at_ /=; lra.
- by case.
exists lu, srt, lus, M, r, st', S; do 9![split=> //].
by apply: sens86n; apply: T; rewrite /=; lia.
Qed.
Print Assumptions C86_nonlinear_refuted.
