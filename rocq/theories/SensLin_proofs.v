(** Lemmas for C109. *)
From Coq Require Import List PeanoNat Permutation.
From mathcomp Require Import all_ssreflect all_fingroup all_algebra.
From Verif Require Import Num Index_model Index_spec Index_proofs Num_rf LU_model LU_spec LU_proofs Linear_model Linear_spec Zmod_tac Linear_proofs Canonical_model Canonical_spec Canonical_proofs.
From Verif Require Import ResErr_model Residual_model Residual_spec Residual_proofs Sens_model Sens_spec Sens_proofs SensLin_spec.
Set Implicit Arguments.
Unset Strict Implicit.
Unset Printing Implicit Defensive.
Local Open Scope ring_scope.
Import Order.TTheory GRing.Theory Num.Theory.

(* ---------- LU::solve with small, large and zero right-hand sides ---------- *)
Section LUZero.
Variables (F : realFieldType) (n : nat) (eps : F) (f : lufac F n).
Lemma forwardZ a b : forward f (a *: b) = a *: forward f b.
Proof. by rewrite /forward; have -> : row_perm (fP f) (a *: b) = a *: row_perm (fP f) b by [apply/matrixP => i j; rewrite !mxE]; rewrite -scalemxAr. Qed.
Lemma forward0 : forward f 0 = 0.
Proof. by rewrite -[0 in LHS](scale0r (0 : 'cV[F]_n)) forwardZ scale0r. Qed.

Section Drop.
Variable b : 'cV[F]_n.
Let y := forward f b.
Definition small k := `|fM f k k| <= eps * `|y k 0|.
Lemma drop_inv (l : seq 'I_n) : uniq l ->
  let s := foldl (@assemble_step F eps n) (LUWs (fM f) y (fun=> true) n) l in
  forall k, wU s k k = (if (k \in l) && small k then 1 else fM f k k) /\ wy s k 0 = if (k \in l) && small k then 0 else y k 0.
Proof.
elim/last_ind: l => [|l k IH] //; rewrite rcons_uniq => /andP [kl /IH]; rewrite foldl_rcons /=.
set s := foldl _ _ l => H i; have [Uk Yk] := H k; rewrite (negbTE kl) /= in Uk Yk.
rewrite /assemble_step Uk Yk -/(small k); have [Ui Yi] := H i.
case: (i =P k) => [->|/eqP ik]; rewrite mem_rcons inE ?eqxx /=.
  by case: ifP => [|_]; [cbn [wU wy]; split; rewrite mxE eqxx | rewrite Uk Yk].
rewrite (negbTE ik) /=; case: ifP => [_|_]; last by rewrite Ui Yi.
by cbn [wU wy]; split; rewrite mxE (negbTE ik).
Qed.

Lemma lu_to_zero : n != 1%N -> (forall k, small k \/ y k 0 = 0) -> lu_solve eps f b = Some 0.
Proof.
move=> /negbTE n1 H; rewrite /lu_solve /lu_solve_full /assembleU n1 /=.
have := @drop_inv (rev (enum 'I_n)); rewrite rev_uniq enum_uniq => /(_ isT).
set s := foldl _ _ _ => /= I.
have Y : wy s = 0.
  apply/matrixP => i j; rewrite ord1 mxE; have [_ ->] := I i; rewrite mem_rev mem_enum /=.
  by case: ifP => // NS; case: (H i) => [S|//]; rewrite S in NS.
rewrite /upper_solve; case: ifP => [/existsP [k]|_]; last by rewrite Y mulmx0 /= /row_perm; congr Some; apply/matrixP => i j; rewrite !mxE.
have [-> _] := I k; rewrite mem_rev mem_enum /=; case: ifP => [_|NS]; first by rewrite oner_eq0.
case: (H k) => [S|Z]; first by rewrite S in NS.
by move=> /eqP M0; rewrite /small M0 Z !normr0 mulr0 lexx in NS.
Qed.
End Drop.

Lemma lu_zero x : lu_solve eps f 0 = Some x -> x = 0.
Proof.
case n1: (n != 1%N); first by rewrite lu_to_zero // => [[<-] //|k]; right; rewrite forward0 mxE.
rewrite /lu_solve /lu_solve_full /assembleU; move/negbFE: n1 => -> /=.
rewrite /upper_solve forward0 mulmx0; case: ifP => //= _ [<-].
by apply/matrixP => i j; rewrite !mxE.
Qed.

Lemma lu_large b : 0 < eps -> n != 1%N -> exists2 a0, 0 < a0 & forall a, a0 <= `|a| -> lu_solve eps f (a *: b) = Some 0.
Proof.
move=> e0 n1; pose y := forward f b; pose g k := `|fM f k k| / (eps * `|y k 0|).
have g0 k : 0 <= g k by rewrite divr_ge0 // mulr_ge0 // ltW.
exists (1 + \sum_k g k); first by rewrite ltr_paddr ?sumr_ge0.
move=> a Ha; apply: lu_to_zero => // k; rewrite /small forwardZ mxE -/y.
case: (y k 0 =P 0) => [->|/eqP yk]; [by right; rewrite mulr0 | left].
have yp : 0 < eps * `|y k 0| by rewrite mulr_gt0 // normr_gt0.
have : g k <= `|a|.
  apply: le_trans _ Ha; rewrite (bigD1 k) //= addrCA ler_addl addr_ge0 // sumr_ge0 // => i _; exact: g0.
by rewrite ler_pdivr_mulr // normrM mulrCA.
Qed.

Lemma lu_small b : 0 <= eps -> exists2 a, 0 < a & resolved eps f (a *: b).
Proof.
move=> e0; pose y := forward f b; pose g k := eps * `|y k 0| / `|fM f k k|.
have g0 k : 0 <= g k by rewrite divr_ge0 // mulr_ge0.
have S0 : 0 < 1 + \sum_k g k by apply: ltr_paddr; [apply: sumr_ge0 | exact: ltr01].
exists (1 + \sum_k g k)^-1; first by rewrite invr_gt0.
move=> k Mk; rewrite forwardZ mxE -/y normrM gtr0_norm ?invr_gt0 //.
rewrite mulrCA mulrC ltr_pdivr_mulr // -ltr_pdivr_mull ?normr_gt0 // -[X in X < _](mulrC (eps * `|y k 0|)) -/(g k).
rewrite (bigD1 k) //= addrCA ltr_addl; apply: ltr_paddr; [apply: sumr_ge0 => i _; exact: g0 | exact: ltr01].
Qed.
End LUZero.

Lemma six (V : zmodType) (a b c d e f : V) : a + b + (c + d) + (e + f) = (a + c + e) + (b + d + f).
Proof. by zmod. Qed.

(* ---------- linear combinations of canonical vectors ---------- *)
Section Combine.
Variables (F : realFieldType) (nbe nbi nn np : nat).
Implicit Types (u v a : cvec F (nbe + nbi) nn np) (J : cmat F (nbe + nbi) nn np).
Definition ccomb (c : F) u (d : F) v : cvec F (nbe + nbi) nn np := CVec (c *: vxs u + d *: vxs v) (c *: vp u + d *: vp v) (c *: vw u + d *: vw v).
Lemma eqs_comb J a1 a2 c d u v : canonical_eqs J a1 u -> canonical_eqs J a2 v -> canonical_eqs J (ccomb c a1 d a2) (ccomb c u d v).
Proof.
move=> [A1 A2 A3] [B1 B2 B3]; rewrite /ccomb; split=> /=.
- rewrite -A1 -B1 !mulmxDr -!scalemxAr !scalerDr !scale_col_mx.
  have -> : col_mx (c *: vw u + d *: vw v) (c *: ((cS J)^T *m vw u) + d *: ((cS J)^T *m vw v)) =
            col_mx (c *: vw u) (c *: ((cS J)^T *m vw u)) + col_mx (d *: vw v) (d *: ((cS J)^T *m vw v)) by rewrite add_col_mx.
  exact: six.
- by rewrite -A2 -B2 !mulmxDr -!scalemxAr !scalerDr addrACA.
- rewrite -A3 -B3 !linearD !linearZ /= ?mulmxDr -?scalemxAr ?scalerDr.
  exact: six.
Qed.
Lemma null_rhsZ k s a : null_rhs k (ccomb s a 0 a) = s *: null_rhs k a.
Proof.
rewrite /null_rhs /null_abi /ccomb /= !scale0r !addr0 !linearZ /= -?scalemxAr -?scalerBr ?linearZ /= -?scalemxAr -?scalerBr.
by rewrite -!scalerDr -scalemxAr -scalerBr !scale_col_mx.
Qed.
Lemma null_rhs0 k : null_rhs k (czero F (nbe + nbi) nn np) = 0.
Proof. by rewrite /null_rhs /null_abi /czero /= !(linear0, mulmx0, subr0, col_mx0). Qed.
Lemma null_finish0 k : null_finish k (czero F (nbe + nbi) nn np) 0 = czero F (nbe + nbi) nn np.
Proof. by rewrite /null_finish /null_abi /czero /= !(linear0, mulmx0, subr0, col_mx0). Qed.
End Combine.

Lemma rawcol_comb (F : realFieldType) m (a b : F) (v w : 'cV[F]_m) i : rawcol (a *: v + b *: w) i = a * rawcol v i + b * rawcol w i.
Proof. by rewrite /rawcol; case: insubP => [k _ _|_]; rewrite ?mxE ?mulr0 ?addr0. Qed.
Lemma rawcol0 (F : realFieldType) m i : rawcol (0 : 'cV[F]_m) i = 0.
Proof. by rewrite /rawcol; case: insubP => [k _ _|//]; rewrite mxE. Qed.

(* ---------- SensitivitySolver::solve ---------- *)
Section SensLin.
Variables (F : realFieldType) (part : partition_impl) (nx np ny nz : nat).
Let nw := (ny + nz)%N.
Variables (d : pdata F) (e : evals F) (Wx Wp : rawmx F) (q : rwq F) (u : mvec F) (r : residual F).
Hypothesis HC : partition_contract part.
Hypothesis HE : forall ju, echelon_form nx np nw (rf_master e Wx Wp ju) (qR q) (qSbn q) (qSbp q) (qjb q) (qjn q).
Hypothesis HR : rf_update part nx np ny nz d e Wx Wp q u = Some r.
Let js := status_js (rst r).
Let ju := status_ju (rst r).
Let jms := status_jms (rst r).
Let c := rc r.
Let J := canon_cmat np (rM r) c.
Variables (eps : F) (f : lufac F (knbe c + ((knne c + knni c) + (np + knbe c)))).
Let CV : canonical_view nx np nw (rM r) q c.
Proof. by have [_] := rf_update_view HC HE HR. Qed.

Definition rhs_of (k : cderivs F) (r0 : rawvec F) := canon_rhs np nw c (sens_rhs ny js ju k r0).

Lemma rhs_comb a k1 b k2 r0 r1 r2 : rhs_of (combine a k1 b k2) r0 = ccomb a (rhs_of k1 r1) b (rhs_of k2 r2).
Proof.
rewrite /rhs_of /canon_rhs /ccomb; cbn [vxs vp vw]; congr CVec; apply/matrixP => i j; rewrite !mxE; cbn [mx mp mw sens_rhs].
- have H : In (ix (kjs c) i) js.
    by apply/(js_kjs HC HE HR); apply: nth_In; have [_ -> _] := cv_sizes CV; apply/ssrnat.ltP.
  have -> : contains (ix (kjs c) i) ju = false.
    by apply/negbTE/negP => /contains_In; exact: (status_disj HC HE HR H).
  by have /contains_In -> := H; rewrite /= opprD !mulrN.
- by rewrite /= opprD !mulrN.
- rewrite !big_distrr -big_split /=; apply: eq_bigr => l _.
  case: ifP => _ /=; first by rewrite mulrDr !(mulrCA a) !(mulrCA b).
  by rewrite opprD mulrDr !mulrN !(mulrCA a) !(mulrCA b).
Qed.

Lemma rhs_irrelevant k r0 : irrelevant k -> rhs_of k r0 = czero F (knbe c + knbi c) (knne c + knni c) np.
Proof.
move=> I; rewrite /rhs_of /canon_rhs /czero; congr CVec; apply/matrixP => i j; rewrite !mxE; cbn [mx mp mw sens_rhs].
- have H : In (ix (kjs c) i) js.
    by apply/(js_kjs HC HE HR); apply: nth_In; have [_ -> _] := cv_sizes CV; apply/ssrnat.ltP.
  by case: ifP => // _; have /contains_In -> := H; have [-> _ _ _] := I (ix (kjs c) i); rewrite oppr0.
- by have [_ -> _ _] := I i; rewrite oppr0.
- rewrite big1 // => l _; case: ifP => _; first by have [_ _ -> _] := I l; rewrite mulr0.
  by have [_ _ _ ->] := I (l - ny)%N; rewrite oppr0 mulr0.
Qed.

(** the sensitivities as functions of the canonical solution *)
Lemma sens_shape k r0 s0 t : sens_solve (r := r) (np := np) ny nz eps k f r0 s0 = Some t ->
  exists v, [/\ nullspace eps f J (rhs_of k r0) = Some v,
    forall i, (i < nx)%N -> sx t i = if contains i jms || contains i ju then 0 else if posn i (kjs c) is Some j then rawcol (vxs v) j else 0,
    forall i, sp t i = rawcol (vp v) i,
    forall l, sw t l = \sum_(i < knbe c + knbi c) kR c i l * vw v i 0
  & forall i, (i < nx)%N -> ss t i = if contains i ju then cfx k i + \sum_(l < nw) mWx (rM r) l i * sw t l else 0].
Proof.
rewrite /sens_solve /ls_solve -/js -/ju -/jms -/c -/J -/nw -/(rhs_of k r0).
case: (nullspace eps f J (rhs_of k r0)) => [v|//]; cbn [omap]; rewrite /omap /obind /oapp => -[<-]; exists v; split=> // i il; cbn [sx ss sp sw master_result mx mp mw].
- case: (contains i jms) => //=; case iu: (contains i ju).
    have /(ju_kju HC HE HR) ik : In i ju by apply/contains_In.
    have [p pl E] := In_ix ik; rewrite -E (posn_ix (view_nodup_u CV) pl).
    by rewrite /c E iu.
  have -> : posn i (kju c) = None.
    have : ~ In i (kju c) by move=> /(ju_kju HC HE HR) /contains_In; rewrite -/ju iu.
    elim: (kju c) => //= x l IH H; case: (Nat.eqb_spec i x) => [E|_]; first by case: H; left.
    by rewrite IH // => ?; apply: H; right.
  case E: (posn i (kjs c)) => [//|].
  have : In i (kjs c).
    apply/(js_kjs HC HE HR); have [//|/contains_In] := proj2 (status_ltn HC HE HR i) il; by rewrite -/ju iu.
  by move=> /In_ix [p pl Ep]; rewrite -Ep (posn_ix (view_nodup_s CV) pl) in E.
- case iu: (contains i ju) => //.
  have [/contains_In -> //|/contains_In] := proj2 (status_ltn HC HE HR i) il; by rewrite -/ju iu.
Qed.
End SensLin.
