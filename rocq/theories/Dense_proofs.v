From mathcomp Require Import all_ssreflect all_algebra.
From Verif Require Import Dense_model Dense_spec.
Set Implicit Arguments.
Unset Strict Implicit.
Unset Printing Implicit Defensive.
Local Open Scope ring_scope.
Import Order.TTheory GRing.Theory Num.Theory.

Section ShermanMorrison.
Variables (F : fieldType) (n : nat).
Implicit Types (A M V : 'M[F]_n) (D : 'cV[F]_n).

Lemma col_row_delta V i : col i V *m row i V = V *m delta_mx i i *m V.
Proof. by rewrite colE rowE mulmxA -(mulmxA V) mul_delta_mx. Qed.

Lemma delta_sandwich V i : delta_mx i i *m V *m delta_mx i i = V i i *: delta_mx i i :> 'M[F]_n.
Proof.
apply/matrixP => k l; rewrite !mxE (bigD1 i) //= big1 ?addr0; last first.
  by move=> j ji; rewrite !mxE (negPf ji) /= mulr0.
rewrite !mxE (bigD1 i) //= big1 ?addr0; last by move=> j ji; rewrite !mxE (negPf ji) andbF mul0r.
by rewrite !mxE !eqxx /= andbT; case: (k == i); case: (l == i); rewrite ?mul1r ?mulr1 ?mul0r ?mulr0.
Qed.

Lemma sm_step_correct M V D i : M *m V = 1%:M -> 1 + D i 0 * V i i != 0 ->
  (M + D i 0 *: delta_mx i i) *m sm_step D V i = 1%:M.
Proof.
move=> MV nz; rewrite /sm_step col_row_delta; set d := D i 0; set c := d / _.
rewrite mulmxDl !mulmxBr MV -!scalemxAr -!scalemxAl.
rewrite !mulmxA MV mul1mx delta_sandwich -scalemxAl.
have cE : c * (1 + d * V i i) = d by rewrite divfK.
rewrite !scalerA -addrA; set E := _ *m V.
have -> : - (c *: E) + (d *: E - (c * d * V i i) *: E) = 0.
  rewrite -scalerBl -scaleNr -scalerDl -[X in (- c + (X - _)) *: _]cE mulrDr mulr1.
  by rewrite [c * (d * _)]mulrA addrK addNr scale0r.
by rewrite addr0.
Qed.

Lemma sm_divisor M V D i : M *m V = 1%:M -> M + D i 0 *: delta_mx i i \in unitmx -> 1 + D i 0 * V i i != 0.
Proof.
move=> MV U; apply/eqP => Z.
have K : (M + D i 0 *: delta_mx i i) *m (V *m delta_mx i i) = 0.
  rewrite mulmxDl mulmxA MV mul1mx -scalemxAl mulmxA delta_sandwich scalerA -[X in X + _]scale1r -scalerDl Z.
  by rewrite scale0r.
have : V *m delta_mx i i = 0 by rewrite -[LHS](mulKmx U) K mulmx0.
move/(congr1 (mulmx M)); rewrite mulmx0 mulmxA MV mul1mx => /matrixP/(_ i i)/eqP.
by rewrite !mxE !eqxx oner_eq0.
Qed.

(** the diagonal matrix that holds the entries of D at the rows in s *)
Definition diag_on D (s : seq 'I_n) : 'M[F]_n := \sum_(i <- s) D i 0 *: delta_mx i i.

Lemma diag_on_enum D : diag_on D (enum 'I_n) = diag_mx D^T.
Proof.
rewrite /diag_on big_enum /=; apply/matrixP => k l; rewrite summxE !mxE (bigD1 k) //= big1 ?addr0.
  by rewrite !mxE eqxx eq_sym mulr_natr.
by move=> j jk; rewrite !mxE eq_sym (negPf jk) mulr0.
Qed.

Lemma sm_loop D A : forall s V, A *m V = 1%:M ->
  (forall k, (k <= size s)%N -> A + diag_on D (take k s) \in unitmx) ->
  (A + diag_on D s) *m foldl (sm_step D) V s = 1%:M.
Proof.
move=> s; elim: s A => [|i s IH] A V AV U /=; first by rewrite /diag_on big_nil addr0.
have U1 : A + D i 0 *: delta_mx i i \in unitmx.
  by have := U 1%N isT; rewrite /= take0 /diag_on big_cons big_nil addr0.
rewrite /diag_on big_cons addrA; apply: IH.
  by apply: sm_step_correct AV (sm_divisor AV U1).
by move=> k ks; have := U k.+1 ks; rewrite /= /diag_on big_cons addrA.
Qed.

Lemma diag_on_take D k : (k <= n)%N -> diag_on D (take k (enum 'I_n)) = partial_diag D k.
Proof.
move=> kn; rewrite /partial_diag -[RHS](trmxK) tr_diag_mx -(trmxK (\row_j _)).
set D' := (\row_j _)^T; rewrite tr_diag_mx -diag_on_enum /diag_on.
rewrite -[in RHS](cat_take_drop k (enum 'I_n)) big_cat /=.
have sz : size (take k (enum 'I_n)) = k by rewrite size_take size_enum_ord; case: ltngtP kn.
rewrite [X in _ = _ + X]big_seq [X in _ = _ + X]big1 ?addr0.
  rewrite big_seq [RHS]big_seq; apply: eq_bigr => i iin; rewrite /D' !mxE.
  suff -> : (i < k)%N by [].
  move: iin; rewrite -(mem_map val_inj) map_take val_enum_ord take_iota mem_iota add0n /=.
  by move/leq_trans; apply; rewrite geq_minl.
move=> i iin; rewrite /D' !mxE.
suff -> : (i < k)%N = false by rewrite scale0r.
apply/negbTE; rewrite -leqNgt; move: iin; rewrite -(mem_map val_inj) map_drop val_enum_ord drop_iota mem_iota add0n.
by case/andP.
Qed.

Lemma inverseShermanMorrison_correct A D : A \in unitmx ->
  (forall k, (k <= n)%N -> A + partial_diag D k \in unitmx) ->
  inverseShermanMorrison (invmx A) D = invmx (A + diag_mx D^T).
Proof.
move=> UA U; have E : (A + diag_mx D^T) *m inverseShermanMorrison (invmx A) D = 1%:M.
  rewrite -diag_on_enum; apply: sm_loop; first by rewrite mulmxV.
  by move=> k; rewrite size_enum_ord => kn; rewrite diag_on_take // U.
have Un : A + diag_mx D^T \in unitmx by case: (mulmx1_unit E).
by rewrite -[LHS](mulKmx Un) E mulmx1.
Qed.
End ShermanMorrison.

Section PosDef.
Variables (F : realFieldType) (n : nat).
Implicit Types (A H : 'M[F]_n) (D x y u v : 'cV[F]_n).

Lemma posdef_unit A : posdef A -> A \in unitmx.
Proof.
move=> PA; rewrite -row_free_unit -kermx_eq0; apply/eqP/row_matrixP => i; rewrite row0.
apply/eqP; apply/negPn/negP => nz; set y := row i _ in nz.
have yA : y *m A = 0 by apply/sub_kermxP; rewrite row_sub.
have := PA y^T; rewrite /quad trmxK yA mul0mx mxE ltxx => H; suff: false by [].
by apply: H; apply: contra nz => /eqP E; rewrite -(trmxK y) E trmx0.
Qed.

Lemma quad_diag D y : quad (diag_mx D^T) y = \sum_i D i 0 * y i 0 ^+ 2.
Proof.
rewrite /quad mul_mx_diag mxE; apply: eq_bigr => i _; rewrite !mxE expr2.
by rewrite mulrCA mulrA.
Qed.

Lemma quadD A H y : quad (A + H) y = quad A y + quad H y.
Proof. by rewrite /quad mulmxDr mulmxDl mxE. Qed.

Lemma partial_diag_quad D k y : (forall i, 0 <= D i 0) -> 0 <= quad (partial_diag D k) y.
Proof.
move=> D0; rewrite /partial_diag -[X in diag_mx X]trmxK quad_diag; apply: sumr_ge0 => i _.
by rewrite !mxE; case: ifP => _; rewrite ?mul0r // mulr_ge0 // sqr_ge0.
Qed.

Lemma inverseShermanMorrison_posdef A D : posdef A -> (forall i, 0 <= D i 0) ->
  inverseShermanMorrison (invmx A) D = invmx (A + diag_mx D^T).
Proof.
move=> PA D0; apply: inverseShermanMorrison_correct; first exact: posdef_unit.
move=> k kn; apply: posdef_unit => y y0; rewrite quadD; apply: ltr_paddr; last exact: PA.
exact: partial_diag_quad.
Qed.

(** ** BFGS *)
Lemma bfgs_secant H u v : (u^T *m v) 0 0 != 0 -> bfgs_update H u v *m v = u.
Proof.
move=> nz; rewrite /bfgs_update; set a := (u^T *m v) 0 0 in nz *.
have uv : u^T *m v = a%:M by rewrite [LHS]mx11_scalar.
rewrite [LHS]mulmxDl -(mulmxA _ _ v) [(1%:M - _ *: (v *m _)) *m v]mulmxBl mul1mx -scalemxAl -mulmxA uv mul_mx_scalar scalerA mulVf //.
rewrite scale1r subrr mulmx0 add0r -scalemxAl -mulmxA uv mul_mx_scalar scalerA mulVf //.
by rewrite scale1r.
Qed.

Lemma bfgs_sym H u v : H^T = H -> (bfgs_update H u v)^T = bfgs_update H u v.
Proof.
move=> HS; rewrite /bfgs_update; set a := (u^T *m v) 0 0.
rewrite linearD /= !trmx_mul !linearB /= !linearZ /= !trmx_mul !trmxK !trmx1 HS.
by rewrite !mulmxA.
Qed.

Lemma quad_congr H (B : 'M[F]_n) y : quad (B^T *m H *m B) y = quad H (B *m y).
Proof. by rewrite /quad trmx_mul !mulmxA. Qed.

Lemma bfgs_posdef H u v : posdef H -> 0 < (u^T *m v) 0 0 -> posdef (bfgs_update H u v).
Proof.
move=> PH a0 y y0; rewrite /bfgs_update; set a := (u^T *m v) 0 0 in a0 *.
have -> : 1%:M - a^-1 *: (u *m v^T) = (1%:M - a^-1 *: (v *m u^T))^T.
  by rewrite [RHS]linearB /= [in RHS]linearZ /= trmx_mul trmxK trmx1.
rewrite quadD quad_congr; set t := (u^T *m y) 0 0.
have uy : u^T *m y = t%:M by rewrite [LHS]mx11_scalar.
have -> : quad (a^-1 *: (u *m u^T)) y = a^-1 * t ^+ 2.
  rewrite /quad -scalemxAr -scalemxAl mxE; congr (_ * _).
  have -> : y^T *m (u *m u^T) *m y = (u^T *m y)^T *m (u^T *m y) by rewrite trmx_mul trmxK !mulmxA.
  by rewrite uy tr_scalar_mx mul_scalar_mx !mxE eqxx mulr1n expr2.
have ge0 z : 0 <= quad H z.
  by case: (eqVneq z 0) => [->|/PH/ltW//]; rewrite /quad mulmx0 mxE.
case: (eqVneq t 0) => [t0|t0].
  rewrite t0 expr0n mulr0 addr0; apply: PH.
  by rewrite mulmxBl mul1mx -scalemxAl -mulmxA uy t0 mul_mx_scalar scale0r scaler0 subr0.
apply: ltr_paddl; first exact: ge0.
by rewrite mulr_gt0 ?invr_gt0 // exprn_even_gt0 //= t0.
Qed.

(** ** Every sequence of calls *)
Lemma bfgs_run_rcons (calls : seq ('cV[F]_n * 'cV[F]_n)) c :
  bfgs_run (rcons calls c) = Some (bfgs_call (bfgs_run calls) c.1 c.2).
Proof. by rewrite /bfgs_run foldl_rcons. Qed.

Lemma bfgs_run_last (calls : seq ('cV[F]_n * 'cV[F]_n)) c :
  exists H, bfgs_run (rcons calls c) = Some (c.1, c.2, H).
Proof. by rewrite bfgs_run_rcons /bfgs_call; case: bfgs_run => [[[x0 g0] H]|]; eexists. Qed.

Lemma curvature_rcons (calls : seq ('cV[F]_n * 'cV[F]_n)) c : curvature (rcons calls c) -> curvature calls.
Proof.
move=> C k ks; have := C k; rewrite size_rcons /= !nth_rcons ltnS ks (ltnW ks) /=.
by apply.
Qed.

Lemma bfgs_run_sym calls x g H : bfgs_run calls = Some (x, g, H) -> H^T = H.
Proof.
elim/last_ind: calls x g H => [//|calls c IH] x g H.
rewrite bfgs_run_rcons /bfgs_call; case E: bfgs_run => [[[x0 g0] H0]|] [] _ _ <-.
  by apply: bfgs_sym; apply: IH E.
by rewrite tr_diag_mx.
Qed.

Lemma bfgs_run_secant calls c c' x g H : bfgs_run (rcons (rcons calls c) c') = Some (x, g, H) ->
  ((c'.1 - c.1)^T *m (c'.2 - c.2)) 0 0 != 0 -> H *m (c'.2 - c.2) = c'.1 - c.1.
Proof.
rewrite bfgs_run_rcons; have [H0 ->] := bfgs_run_last calls c; rewrite /bfgs_call /= => [] [] _ _ <-.
exact: bfgs_secant.
Qed.

Lemma bfgs_run_posdef calls x g H : (forall i, 0 < (head (0, 0) calls : 'cV[F]_n * 'cV[F]_n).1 i 0) -> curvature calls ->
  bfgs_run calls = Some (x, g, H) -> posdef H.
Proof.
elim/last_ind: calls x g H => [//|calls c' IH] x g H P C.
rewrite bfgs_run_rcons; case/lastP: calls IH P C => [|calls c] IH P C.
  case=> _ _ <- y y0; rewrite quad_diag.
  have [i yi] : exists i, y i 0 != 0.
    apply/existsP; apply: contraR y0; rewrite negb_exists => /forallP y0; apply/eqP/matrixP => i j.
    by rewrite ord1 mxE; apply/eqP; have := y0 i; rewrite negbK.
  rewrite (bigD1 i) //=; apply: ltr_paddr.
    by apply: sumr_ge0 => j _; rewrite mulr_ge0 ?sqr_ge0 // ltW // P.
  by rewrite mulr_gt0 ?P // exprn_even_gt0 //= yi.
have [H0 E] := bfgs_run_last calls c; rewrite E /bfgs_call => [] [] _ _ <-.
apply: bfgs_posdef.
  apply: (IH _ _ _ _ (curvature_rcons C) E).
  by case: (calls) P.
have := C (size calls); rewrite !size_rcons ltnSn => /(_ isT).
have -> : nth (0, 0) (rcons (rcons calls c) c') (size calls) = c.
  by rewrite nth_rcons size_rcons ltnSn nth_rcons ltnn eqxx.
have -> : nth (0, 0) (rcons (rcons calls c) c') (size calls).+1 = c'.
  by rewrite nth_rcons size_rcons ltnn eqxx.
by [].
Qed.
End PosDef.
