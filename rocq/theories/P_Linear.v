(** Property theorems C36-C38 and C40. *)
From mathcomp Require Import all_ssreflect all_fingroup all_algebra.
From Verif Require Import LU_model LU_spec LU_proofs Linear_model Linear_spec Linear_proofs.
Set Implicit Arguments.
Unset Strict Implicit.
Unset Printing Implicit Defensive.
Import Order.TTheory GRing.Theory Num.Theory.
Local Open Scope ring_scope.

(** Factors with full pivoting exist for every square matrix, so the hypothesis
    [full_piv] below excludes no matrix. *)
Theorem full_piv_exists : forall (F : realFieldType) (n : nat) (A : 'M[F]_n), exists f, full_piv A f.
Proof.
move=> F; elim=> [|n IH] A.
  by exists (LUFac 1%g 1%g 0); split=> [|[]//]; apply/matrixP => -[].
have [->|/matrix0Pn [i0 [j0 a0]]] := eqVneq A 0.
  exists (LUFac 1%g 1%g 0); split=> [|k _ i j _ _]; last by rewrite mxE.
  have -> : upper (0 : 'M[F]_n.+1) = 0 by apply/matrixP => i j; rewrite !mxE if_same.
  by rewrite mulmx0; apply/matrixP => i j; rewrite !mxE.
pose B := permuted (tperm ord0 i0) (tperm ord0 j0) A.
have B0 : B ord0 ord0 != 0 by rewrite mxE !tpermL.
have [f [E Z]] := IH (\matrix_(i, j) (B (lift ord0 i) (lift ord0 j) - B (lift ord0 i) ord0 * B ord0 (lift ord0 j) / B ord0 ord0)).
pose P := (lift_perm ord0 ord0 (fP f) * tperm ord0 i0)%g; pose Q := (lift_perm ord0 ord0 (fQ f) * tperm ord0 j0)%g.
pose M : 'M[F]_n.+1 := \matrix_(i, j) match unlift ord0 i, unlift ord0 j with
   | None, None => B ord0 ord0 | None, Some j' => B ord0 (lift ord0 (fQ f j'))
   | Some i', None => B (lift ord0 (fP f i')) ord0 / B ord0 ord0 | Some i', Some j' => fM f i' j' end.
have M00 : M ord0 ord0 = B ord0 ord0 by rewrite mxE unlift_none.
have M0l j : M ord0 (lift ord0 j) = B ord0 (lift ord0 (fQ f j)) by rewrite mxE unlift_none liftK.
have Ml0 i : M (lift ord0 i) ord0 = B (lift ord0 (fP f i)) ord0 / B ord0 ord0 by rewrite mxE unlift_none liftK.
have Mll i j : M (lift ord0 i) (lift ord0 j) = fM f i j by rewrite mxE !liftK.
exists (LUFac P Q M); split=> /= [|k].
  have PB i j : permuted P Q A i j = B (lift_perm ord0 ord0 (fP f) i) (lift_perm ord0 ord0 (fQ f) j) by rewrite !mxE !permM.
  apply/matrixP => i j; rewrite PB [RHS]mxE big_ord_recl.
  have S0 : forall j, \sum_(l < n) unit_lower M ord0 (lift ord0 l) * upper M (lift ord0 l) j = 0.
    by move=> j'; rewrite big1 // => l _; rewrite mxE /= mul0r.
  case: (unliftP ord0 i) => [i' ->|->]; case: (unliftP ord0 j) => [j' ->|->]; rewrite ?lift_perm_lift ?lift_perm_id.
  - have EE : B (lift ord0 (fP f i')) (lift ord0 (fQ f j')) - B (lift ord0 (fP f i')) ord0 * B ord0 (lift ord0 (fQ f j')) / B ord0 ord0 =
              \sum_(l < n) unit_lower (fM f) i' l * upper (fM f) l j'.
      by move: (congr1 (fun X : 'M[F]_n => X i' j') E); rewrite [_ i' j']mxE [X in X = _]mxE => ->; rewrite mxE.
    have -> : \sum_(l < n) unit_lower M (lift ord0 i') (lift ord0 l) * upper M (lift ord0 l) (lift ord0 j') =
              \sum_(l < n) unit_lower (fM f) i' l * upper (fM f) l j'.
      by apply: eq_bigr => l _; rewrite !mxE !liftK /= !ltnS (inj_eq lift_inj).
    have -> : unit_lower M (lift ord0 i') ord0 = M (lift ord0 i') ord0 by rewrite mxE.
    have -> : upper M ord0 (lift ord0 j') = M ord0 (lift ord0 j') by rewrite mxE.
    by rewrite -EE Ml0 M0l mulrAC addrCA subrr addr0.
  - rewrite big1 ?addr0; last by move=> l _; rewrite [upper _ _ _]mxE /= mulr0.
    have -> : unit_lower M (lift ord0 i') ord0 = M (lift ord0 i') ord0 by rewrite mxE.
    have -> : upper M ord0 ord0 = M ord0 ord0 by rewrite mxE.
    by rewrite Ml0 M00 mulfVK.
  - have -> : upper M ord0 (lift ord0 j') = M ord0 (lift ord0 j') by rewrite mxE.
    have -> : unit_lower M ord0 ord0 = 1 by rewrite mxE.
    by rewrite S0 addr0 mul1r M0l.
  - have -> : upper M ord0 ord0 = M ord0 ord0 by rewrite mxE.
    have -> : unit_lower M ord0 ord0 = 1 by rewrite mxE.
    by rewrite S0 addr0 mul1r M00.
case: (unliftP ord0 k) => [k' ->|->]; last by rewrite M00 => /eqP; rewrite (negPf B0).
rewrite Mll => /Z H i j.
case: (unliftP ord0 i) => [i' ->|->] //; case: (unliftP ord0 j) => [j' ->|->] // ki kj.
by rewrite Mll H.
Qed.
Print Assumptions full_piv_exists.

(** a nonsingular canonical system: every block is present, S = Sp = 1, Hss = I, Hsp = 1 *)
Definition Jone (F : realFieldType) (nb nn np : nat) : cmat F nb nn np :=
  CMat 1%:M (const_mx 1) 0 1%:M (const_mx 1) (const_mx 1).
Lemma gram_free (F : realFieldType) m n (S : 'M[F]_(m, n)) (w : 'cV[F]_m) : w + S *m (S^T *m w) = 0 -> w = 0.
Proof.
move=> E.
have : (w^T *m w) 0 0 + ((S^T *m w)^T *m (S^T *m w)) 0 0 = 0.
  have := congr1 (fun X => (w^T *m X) 0 0) E; rewrite mulmxDr mulmx0 [X in X = _]mxE [X in _ = X]mxE => <-.
  by rewrite trmx_mul trmxK -!mulmxA.
have sq k (v : 'cV[F]_k) : (v^T *m v) 0 0 = \sum_i v i 0 ^+ 2.
  by rewrite mxE; apply: eq_bigr => i _; rewrite mxE expr2.
have ge k (v : 'cV[F]_k) : 0 <= \sum_i v i 0 ^+ 2 by apply: sumr_ge0 => i _; apply: sqr_ge0.
rewrite !sq => /eqP; rewrite paddr_eq0 // => /andP [/eqP H _].
apply/colP => i; rewrite mxE; apply/eqP; rewrite -sqrf_eq0; apply/eqP.
by apply: (psumr_eq0P _ H) => // j _; apply: sqr_ge0.
Qed.
Lemma Jone_nonsingular (F : realFieldType) nb nn np : nonsingular (Jone F nb nn np).
Proof.
move=> [xs p w] [/= E1 E2 E3].
have p0 : p = 0 by move: E2; rewrite mul0mx add0r mul1mx.
move: E1 E3; rewrite p0 !mulmx0 !addr0 mul1mx -(vsubmxK xs) col_mxKu col_mxKd add_col_mx => E1.
have [Eb En] : usubmx xs + w = 0 /\ dsubmx xs + (const_mx 1)^T *m w = 0.
  by move: E1; rewrite -[X in _ = X -> _](@col_mx0 F nb nn 1) => /eq_col_mx.
have -> : usubmx xs = - w by apply/eqP; rewrite -addr_eq0 Eb.
have -> : dsubmx xs = - ((const_mx 1)^T *m w) by apply/eqP; rewrite -addr_eq0 En.
rewrite mulmxN -opprD => /eqP; rewrite oppr_eq0 => /eqP/gram_free ->.
by rewrite mulmx0 !oppr0 col_mx0.
Qed.

(** Right-hand sides that are resolved: with eps = 0, all of them. *)
Lemma resolved0 (F : realFieldType) n (f : lufac F n) (b : 'cV[F]_n) : resolved 0 f b.
Proof. by move=> k Mk; rewrite mul0r normr_gt0. Qed.

(** ** C36.  Missing: as for C33, right-hand sides that are not resolved. *)
Theorem C36_fullspace_partial : forall (F : realFieldType) nb nn np (eps : F) f (J : cmat F nb nn np) (a : cvec F nb nn np),
  0 <= eps -> full_piv (full_matrix J) f -> nonsingular J -> resolved eps f (full_rhs a) ->
  exists2 u, fullspace eps f a = Some u & canonical_eqs J a u.
Proof. by move=> F nb nn np eps f J a e0 fp /nonsingularE U; exact: fullspace_solves. Qed.
Print Assumptions C36_fullspace_partial.

Theorem C36_eps0 : forall (F : realFieldType) nb nn np f (J : cmat F nb nn np) (a : cvec F nb nn np),
  full_piv (full_matrix J) f -> nonsingular J ->
  exists2 u, fullspace 0 f a = Some u & canonical_eqs J a u.
Proof. by move=> F nb nn np f J a fp N; apply: C36_fullspace_partial => //; apply: resolved0. Qed.
Print Assumptions C36_eps0.

(** The assembled matrix is singular exactly when the canonical equations are. *)
Theorem C36_matrix : forall (F : realFieldType) nb nn np (J : cmat F nb nn np),
  nonsingular J <-> full_matrix J \in unitmx.
Proof. move=> F nb nn np J; exact: nonsingularE. Qed.
Print Assumptions C36_matrix.

Example C36_case (F : realFieldType) nb nn np : exists f, full_piv (full_matrix (Jone F nb nn np)) f /\ nonsingular (Jone F nb nn np).
Proof. by have [f fp] := full_piv_exists (full_matrix (Jone F nb nn np)); exists f; split=> //; apply: Jone_nonsingular. Qed.

(** ** C37.  The reduced matrix is nonsingular whenever the system is, whatever the
    explicit/implicit split.  Missing: as for C33. *)
Theorem C37_nullspace_partial : forall (F : realFieldType) nbe nbi nn np (eps : F) f (J : cmat F (nbe + nbi) nn np) a,
  0 <= eps -> full_piv (nM (null_decompose J)) f -> nM (null_decompose J) \in unitmx ->
  resolved eps f (null_rhs (null_decompose J) a) ->
  exists2 u, nullspace eps f J a = Some u & canonical_eqs J a u.
Proof. by move=> F nbe nbi nn np eps f J a; exact: nullspace_solves. Qed.
Print Assumptions C37_nullspace_partial.

Theorem C37_reduced : forall (F : realFieldType) nbe nbi nn np (J : cmat F (nbe + nbi) nn np),
  nonsingular J -> nM (null_decompose J) \in unitmx.
Proof. by move=> F nbe nbi nn np J; exact: nonsingular_null. Qed.
Print Assumptions C37_reduced.

Theorem C37_eps0 : forall (F : realFieldType) nbe nbi nn np f (J : cmat F (nbe + nbi) nn np) a,
  full_piv (nM (null_decompose J)) f -> nonsingular J ->
  exists2 u, nullspace 0 f J a = Some u & canonical_eqs J a u.
Proof.
move=> F nbe nbi nn np f J a fp N; apply: nullspace_solves => //; [exact: nonsingular_null | exact: resolved0].
Qed.
Print Assumptions C37_eps0.

Example C37_case (F : realFieldType) nbe nbi nn np :
  exists f, full_piv (nM (null_decompose (Jone F (nbe + nbi) nn np))) f /\ nM (null_decompose (Jone F (nbe + nbi) nn np)) \in unitmx.
Proof.
have [f fp] := full_piv_exists (nM (null_decompose (Jone F (nbe + nbi) nn np))); exists f; split=> //.
by apply: nonsingular_null; apply: Jone_nonsingular.
Qed.

(** ** C38.  What the Rangespace method returns satisfies every equation except those of the
    basic explicit variables, whose left-hand side misses the right one by
    2*(inv(Hbebe) + Sbene*inv(Hnene)*Sbene')*wbe: line 189 assembles M33 with the wrong sign.
    Missing: systems with basic explicit variables, see [C38_rangespace_refuted]. *)
Theorem C38_rangespace_off_by : forall (F : realFieldType) nbe nbi nne nni np (eps : F) f (J : cmat F (nbe + nbi) (nne + nni) np) a,
  is_diag (cHss J) -> (forall i, range_Hbebe J i 0 != 0) -> (forall i, range_Hnene J i 0 != 0) ->
  0 <= eps -> full_piv (range_matrix J) f -> range_matrix J \in unitmx -> resolved eps f (range_rhs J a) ->
  exists2 u, rangespace eps f J a = Some u &
  let Sbene := usubmx (lsubmx (cS J)) in
  let d := (dg (einv (range_Hbebe J)) + Sbene *m dg (einv (range_Hnene J)) *m Sbene^T) *m usubmx (vw u) in
  [/\ cHss J *m vxs u + cHsp J *m vp u + col_mx (vw u) ((cS J)^T *m vw u) = vxs a,
      cVps J *m vxs u + cVpp J *m vp u = vp a
    & usubmx (vxs u) + cS J *m dsubmx (vxs u) + cSp J *m vp u = vw a - col_mx (d + d) 0].
Proof.
move=> F nbe nbi nne nni np eps f J a D Hb Hn e0 fp U R.
have [r E1 E2] := rangespace_solves e0 fp U R; exists (range_finish J a r) => //=.
have [H1 H2 /= H3] := range_eqs D Hb Hn E2; split=> //.
by apply/eqP; rewrite eq_sym subr_eq eq_sym; apply/eqP.
Qed.
Print Assumptions C38_rangespace_off_by.

(** correct without basic explicit variables *)
Theorem C38_rangespace_partial : forall (F : realFieldType) nbi nne nni np (eps : F) f (J : cmat F (0 + nbi) (nne + nni) np) a,
  is_diag (cHss J) -> (forall i, range_Hnene J i 0 != 0) ->
  0 <= eps -> full_piv (range_matrix (nbe := 0) J) f -> nonsingular J -> resolved eps f (range_rhs (nbe := 0) J a) ->
  exists2 u, rangespace (nbe := 0) eps f J a = Some u & canonical_eqs J a u.
Proof.
move=> F nbi nne nni np eps f J a D Hn e0 fp N R.
have Hb : forall i, range_Hbebe (nbe := 0) J i 0 != 0 by case.
have C a' r : range_matrix (nbe := 0) J *m r = range_rhs (nbe := 0) J a' -> canonical_eqs J a' (range_finish (nbe := 0) J a' r).
  move/(range_eqs D Hb Hn) => [H1 H2 H3]; split=> //; rewrite -[RHS]H3 [X in col_mx X](_ : _ = 0).
    by rewrite col_mx0 addr0.
  by apply/matrixP => -[].
have U : range_matrix (nbe := 0) J \in unitmx.
  apply: unit_kernel => r E.
  have /N H : canonical_eqs J (czero F _ _ _) (range_finish (nbe := 0) J (czero F _ _ _) r).
    by apply: C; rewrite E /range_rhs /range_abe /range_ane /= !(linear0, mulmx0, subr0, addr0, col_mx0).
  have /= Hp := congr1 (@vp _ _ _ _) H; have /= Hx := congr1 (@vxs _ _ _ _) H.
  have := congr1 (dsubmx \o usubmx) Hx; have := congr1 (dsubmx \o dsubmx) Hx; rewrite /= !(col_mxKu, col_mxKd, linear0) => K1 K2.
  rewrite -[r]vsubmxK -[dsubmx r]vsubmxK -[dsubmx (dsubmx r)]vsubmxK Hp K2 K1.
  by rewrite [usubmx (dsubmx (dsubmx r))](_ : _ = 0) ?col_mx0 //; apply/matrixP => -[].
have [r E1 E2] := rangespace_solves e0 fp U R; exists (range_finish (nbe := 0) J a r) => //.
exact: C.
Qed.
Print Assumptions C38_rangespace_partial.

Example C38_case (F : realFieldType) nbi nne nni np : let J := Jone F (0 + nbi) (nne + nni) np in
  exists f, [/\ is_diag (cHss J), forall i, range_Hnene (nbe := 0) J i 0 != 0, full_piv (range_matrix (nbe := 0) J) f & nonsingular J].
Proof.
move=> J; have [f fp] := full_piv_exists (range_matrix (nbe := 0) J); exists f; split=> //.
- by move=> i j ij; rewrite mxE (negPf ij).
- by move=> i; rewrite !mxE eqxx oner_eq0.
- exact: Jone_nonsingular.
Qed.

(** x + w = 0, x = 1, one basic explicit variable: the method returns x = -1, w = 1. *)
Definition Jb (F : realFieldType) : cmat F (1 + 0) (0 + 0) 0 := Jone F 1 0 0.
Definition ab (F : realFieldType) : cvec F (1 + 0) (0 + 0) 0 := CVec 0 0 (const_mx 1).
Theorem C38_rangespace_refuted : forall F : realFieldType,
  exists f u, [/\ [/\ is_diag (cHss (Jb F)), forall i, range_Hbebe (nbe := 1) (Jb F) i 0 != 0, nonsingular (Jb F),
                      full_piv (range_matrix (Jb F)) f & range_matrix (Jb F) \in unitmx],
                  resolved 0 f (range_rhs (Jb F) (ab F)), rangespace 0 f (Jb F) (ab F) = Some u & ~ canonical_eqs (Jb F) (ab F) u].
Proof.
move=> F.
have D : is_diag (cHss (Jb F)) by move=> i j ij; rewrite mxE (negPf ij).
have Hb : range_Hbebe (nbe := 1) (Jb F) = const_mx 1 by apply/colP => i; rewrite !mxE eqxx.
have Hb0 i : range_Hbebe (nbe := 1) (Jb F) i 0 != 0 by rewrite Hb mxE oner_eq0.
have Ib : dg (einv (range_Hbebe (nbe := 1) (Jb F))) = 1%:M.
  by apply/matrixP => i j; rewrite Hb !mxE invr1.
have U : range_matrix (Jb F) \in unitmx.
  apply: unit_kernel => r E.
  have /block4 [_ _ E3 _] : range_matrix (Jb F) *m r = col_mx 0 (col_mx 0 (col_mx 0 0)) by rewrite E !col_mx0.
  rewrite -[r]vsubmxK -[dsubmx r]vsubmxK -[dsubmx (dsubmx r)]vsubmxK.
  rewrite [usubmx r]flatmx0 [usubmx (dsubmx r)]flatmx0 [dsubmx (dsubmx (dsubmx r))]flatmx0.
  suff -> : usubmx (dsubmx (dsubmx r)) = 0 by rewrite !col_mx0.
  rewrite -[RHS]E3 [usubmx r]flatmx0 [usubmx (dsubmx r)]flatmx0 [dsubmx (dsubmx (dsubmx r))]flatmx0 !mulmx0 addr0 !add0r Ib.
  rewrite /range_T [lsubmx _]thinmx0 mul0mx.
  by rewrite [ulsubmx 0](_ : _ = 0) ?addr0 ?mul1mx //; apply/matrixP => i j; rewrite !mxE.
have [f fp] := full_piv_exists (range_matrix (Jb F)).
have Hn i : range_Hnene (nbe := 1) (nne := 0) (Jb F) i 0 != 0 by case: i.
have [u E [H1 _ H3]] := C38_rangespace_off_by D Hb0 Hn (lexx 0) fp U (resolved0 (range_rhs (Jb F) (ab F))).
exists f, u; split=> //; [by split=> //; exact: Jone_nonsingular | exact: resolved0 | case=> _ _ /= H4].
move: H3; rewrite /= H4 Ib => /esym/eqP; rewrite subr_eq addrC -subr_eq subrr => /eqP/esym.
rewrite -[X in _ = X -> _](@col_mx0 F 1 0 1) => /eq_col_mx [+ _].
rewrite [lsubmx _]thinmx0 [usubmx _]thinmx0 !mul0mx addr0 mul1mx => W.
have w0 : vw u = 0.
  rewrite -(vsubmxK (vw u)) [dsubmx _]flatmx0 [usubmx _](_ : _ = 0) ?col_mx0 //.
  apply/matrixP => i j; have := congr1 (fun X : 'cV[F]_1 => X i j) W; rewrite ![in X in X -> _]mxE -mulr2n => /eqP.
  by rewrite mulrn_eq0 /= => /eqP H; rewrite [LHS]mxE [RHS]mxE.
move: H1; rewrite w0 mulmx0 [X in _ + X](_ : _ = 0) ?addr0; last by rewrite col_mx0.
rewrite mul1mx [vp u]flatmx0 mulmx0 addr0 => xs0.
move: H4; rewrite xs0 [vp u]flatmx0 !mulmx0 /= => /colP /(_ 0); rewrite !mxE !big_ord0 => /eqP.
by rewrite ?addr0 ?add0r eq_sym oner_eq0.
Qed.
Print Assumptions C38_rangespace_refuted.

(** ** C40.  Missing: Rangespace with basic explicit variables (see
    [C40_agree_refuted]) and right-hand sides that are not resolved. *)
Theorem C40_full_null_agree_partial : forall (F : realFieldType) nbe nbi nn np (eps : F) f f' (J : cmat F (nbe + nbi) nn np) a,
  0 <= eps -> nonsingular J ->
  full_piv (full_matrix J) f -> resolved eps f (full_rhs a) ->
  full_piv (nM (null_decompose J)) f' -> resolved eps f' (null_rhs (null_decompose J) a) ->
  exists u, fullspace eps f a = Some u /\ nullspace eps f' J a = Some u.
Proof.
move=> F nbe nbi nn np eps f f' J a e0 N fp R fp' R'.
have [u E Hu] := C36_fullspace_partial e0 fp N R.
have [v E' Hv] := nullspace_solves e0 fp' (nonsingular_null N) R'.
by exists u; split; rewrite // E' (eqs_unique N Hu Hv).
Qed.
Print Assumptions C40_full_null_agree_partial.

Theorem C40_full_range_agree_partial : forall (F : realFieldType) nbi nne nni np (eps : F) f f' (J : cmat F (0 + nbi) (nne + nni) np) a,
  0 <= eps -> nonsingular J -> is_diag (cHss J) -> (forall i, range_Hnene (nbe := 0) J i 0 != 0) ->
  full_piv (full_matrix J) f -> resolved eps f (full_rhs a) ->
  full_piv (range_matrix (nbe := 0) J) f' -> resolved eps f' (range_rhs (nbe := 0) J a) ->
  exists u, fullspace eps f a = Some u /\ rangespace (nbe := 0) eps f' J a = Some u.
Proof.
move=> F nbi nne nni np eps f f' J a e0 N D Hn fp R fp' R'.
have [u E Hu] := C36_fullspace_partial e0 fp N R.
have [v E' Hv] := C38_rangespace_partial D Hn e0 fp' N R'.
by exists u; split; rewrite // E' (eqs_unique N Hu Hv).
Qed.
Print Assumptions C40_full_range_agree_partial.

(** the cases C36_case, C37_case and C38_case meet these hypotheses with eps = 0 *)
Example C40_case (F : realFieldType) nbi nne nni np (a : cvec F (0 + nbi) (nne + nni) np) : let J := Jone F (0 + nbi) (nne + nni) np in
  exists f f' f'' u, [/\ fullspace 0 f a = Some u, nullspace (nbe := 0) 0 f' J a = Some u & rangespace (nbe := 0) 0 f'' J a = Some u].
Proof.
move=> J; have [f [fp N]] := C36_case F (0 + nbi) (nne + nni) np; have [f' [fp' _]] := C37_case F 0 nbi (nne + nni) np.
have [f'' [D Hn fp'' _]] := C38_case F nbi nne nni np; exists f, f', f''.
have [u [E1 E2]] := C40_full_null_agree_partial (lexx 0) N fp (resolved0 (full_rhs a)) fp' (resolved0 _).
have [v [E3 E4]] := C40_full_range_agree_partial (lexx 0) N D Hn fp (resolved0 (full_rhs a)) fp'' (resolved0 _).
by exists u; split=> //; move: E3; rewrite E1 => -[->].
Qed.

Theorem C40_agree_refuted : forall F : realFieldType,
  exists (J : cmat F (1 + 0) (0 + 0) 0) a f f' u v,
  [/\ nonsingular J, is_diag (cHss J), range_matrix J \in unitmx,
      full_piv (full_matrix J) f /\ full_piv (range_matrix J) f' &
      [/\ fullspace 0 f a = Some u, rangespace 0 f' J a = Some v & u <> v]].
Proof.
move=> F; have [f' [v [[D _ N fp' U] _ E W]]] := C38_rangespace_refuted F.
have [f fp] := full_piv_exists (full_matrix (Jb F)).
have [u Eu Hu] := C36_eps0 (ab F) fp N.
exists (Jb F), (ab F), f, f', u, v; split=> //; split=> // uv.
by apply: W; rewrite -uv.
Qed.
Print Assumptions C40_agree_refuted.
