(** Property theorem C79: the basic variables are chosen away from the bounds. *)
From mathcomp Require Import all_ssreflect all_fingroup all_algebra.
From Verif Require Import Echelon_model Echelon_spec Echelon_proofs EchelonOpt_proofs EchelonExt_model EchelonExt_spec EchelonExt_proofs P_EchelonExt.
From Verif Require Import Canonical_model Residual_model Basis_spec.
Set Implicit Arguments.
Unset Strict Implicit.
Unset Printing Implicit Defensive.
Import Order.TTheory GRing.Theory Num.Theory.
Local Open Scope ring_scope.

(** A basis that no exchange improves has the largest possible smallest weight: if the
    variables of weight at least t contain a basis then all basic variables have weight at least t. *)
Lemma bottleneck (F : realFieldType) (nbA mdA nbJ mdJ nnJ : nat)
    (A : 'M[F]_(nbA + mdA, nbA + (nbJ + nnJ))) (J : 'M[F]_(nbJ + mdJ, nbA + (nbJ + nnJ)))
    (x : xech F nbA mdA nbJ mdJ nnJ) w (t : F) k (s : 'I_k -> 'I_(nbA + (nbJ + nnJ))) :
  xcanonical A J x -> xexchange_optimal w x -> spanning (col_mx A J) s -> (forall a, t <= w (s a)) ->
  forall i, t <= w (xQ x (lshift nnJ i)).
Proof.
move=> [QI RF _ E] XO SP TW i.
case: (lerP t (w (xQ x (lshift nnJ i)))) => // lt.
have Z : row i (xR x) *m colsub s (col_mx A J) = 0.
  apply/rowP => a; rewrite [RHS]mxE.
  have [b Qb] : exists b, xQ x b = s a.
    have bij : bijective (xQ x) by apply: inj_card_bij QI _; rewrite !card_ord addnA.
    by case: bij => g _ gK; exists (g (s a)); rewrite gK.
  have Eb : (row i (xR x) *m colsub s (col_mx A J)) 0 a = (xR x *m colsub (xQ x) (col_mx A J)) i b.
    by rewrite !mxE; apply: eq_bigr => l _; rewrite mxE [colsub s _ _ _]mxE [colsub (xQ x) _ _ _]mxE Qb.
  rewrite Eb.
  have -> : xR x *m colsub (xQ x) (col_mx A J) = row_mx 1%:M (xS x).
    by rewrite -E /xech_R mul_col_mx col_mxKu.
  rewrite mxE; case: (splitP b) => [j|j] bj; rewrite -/(_ + _)%N.
    have bE : b = lshift nnJ j by apply: val_inj.
    rewrite mxE; case: eqP => // ij.
    by move: (TW a); rewrite -Qb bE -ij leNgt lt.
  have bE : b = rshift (nbA + nbJ) j by apply: val_inj.
  case: (altP (xS x i j =P 0)) => // nz.
  have := XO i j nz; rewrite -bE Qb => le.
  by move: (le_lt_trans (le_trans (TW a) le) lt); rewrite ltxx.
have r0 : row i (xR x) = 0.
  apply/rowP => l; rewrite [RHS]mxE.
  have [c Ec] := SP (delta_mx l 0).
  have : (row i (xR x) *m delta_mx l (0 : 'I_1)) 0 0 = 0 by rewrite Ec mulmxA Z mul0mx mxE.
  by rewrite -colE !mxE.
have RFx : row_free (xR x).
  rewrite -kermx_eq0; apply/rowV0P => v /sub_kermxP v0.
  have Ev : row_mx v 0 *m xech_R x = 0 by rewrite /xech_R mul_row_col v0 mul0mx addr0.
  have := row_free_inj RF.
  move/(_ _ (row_mx v 0) 0); rewrite Ev mul0mx => /(_ erefl) V0.
  by rewrite -(row_mxKl v (0 : 'M[F]_(1, mdA + mdJ))) V0 linear0.
have := row_free_inj RFx.
move/(_ _ (delta_mx 0 i : 'rV_(nbA + nbJ)) 0); rewrite -rowE r0 mul0mx => /(_ erefl) /rowP /(_ i).
by rewrite !mxE !eqxx => /eqP; rewrite oner_eq0.
Qed.

(** ** C79.  [W] = [A; J] is the matrix of all constraints, [x] the point, and the result of
    the update with the weights of the residual function is the matrix of C30 for it.  If the
    variables off their bounds contain a basis, the basic variables are off their bounds; if
    those of them with |x| >= t do, so are they.  Missing: nonzero pivots below the threshold
    count as zero (C28), so no pivot may be among them. *)
Theorem C79_basic_variables_partial : forall (F : realFieldType) (nbA mdA nbJ mdJ nnJ : nat)
    (A : 'M[F]_(nbA + mdA, nbA + (nbJ + nnJ))) (J : 'M[F]_(nbJ + mdJ, nbA + (nbJ + nnJ)))
    (fA : lufactors F nbA mdA (nbJ + nnJ)) (fJ : lufactors F nbJ mdJ nnJ) (th : F) hist histJ KbA KnA KbJ KnJ Kb Kn (d : pdata F) (x : rawvec F),
  let w := fun i : 'I_(nbA + (nbJ + nnJ)) => rf_weight d x i in
  let eA := cur (ech_run th (obj_compute fA) hist) in
  let eA' := ech_weights th w eA KbA KnA in
  let eJ := cur (ech_run th (obj_compute fJ) histJ) in
  0 <= th -> lu_contract A fA -> ops_ok th (obj_compute fA) hist -> injective KbA -> injective KnA ->
  lu_contract (J2of eA' J) fJ -> ops_ok th (obj_compute fJ) histJ -> injective KbJ -> injective KnJ ->
  injective Kb -> injective Kn ->
  pivots_resolved th w eA (enum 'I_nbA) -> pivots_resolved th (wJof eA' w) eJ (enum 'I_nbJ) ->
  let basic := fun i : 'I_(nbA + nbJ) => xQ (ext_update th eA eJ J w KbA KnA KbJ KnJ Kb Kn) (lshift nnJ i) in
  forall (t : F) k (s : 'I_k -> 'I_(nbA + (nbJ + nnJ))), 0 <= t -> spanning (col_mx A J) s ->
    (forall a, off_bounds x (dxl d) (dxu d) (s a) /\ t <= `|x (s a)|) ->
    forall i, off_bounds x (dxl d) (dxu d) (basic i) /\ t <= `|x (basic i)|.
Proof.
move=> F nbA mdA nbJ mdJ nnJ A J fA fJ th hist histJ KbA KnA KbJ KnJ Kb Kn d x w eA eA' eJ th0 cA okA bA nA cJ okJ bJ nJ b n pA pJ basic t k s t0 SP TW i.
have := @C30_extended_partial F nbA mdA nbJ mdJ nnJ A J fA fJ th w hist histJ KbA KnA KbJ KnJ Kb Kn th0 cA okA bA nA cJ okJ bJ nJ b n.
have := @C30_exchange_optimal_partial F nbA mdA nbJ mdJ nnJ J eA eJ th w KbA KnA KbJ KnJ Kb Kn th0 pA pJ.
move=> XO XC.
have TW' : forall a, t <= w (s a).
  move=> a; have [[l u] ta] := TW a; rewrite /w /rf_weight.
  by have [-> ->] : x (s a) != dxl d (s a) /\ x (s a) != dxu d (s a) by split; apply/eqP.
have := bottleneck XC XO SP TW' i; rewrite -/(basic i) /w /rf_weight.
case: (altP (x (basic i) =P dxl d (basic i))) => [_|/eqP l] /=; last case: (altP (x (basic i) =P dxu d (basic i))) => [_|/eqP u] /=.
- by move/(le_trans t0); rewrite ler0N1.
- by move/(le_trans t0); rewrite ler0N1.
- by [].
Qed.
Print Assumptions C79_basic_variables_partial.

(** with threshold 0 no pivot is mistaken for a zero *)
Lemma resolved0 (F : realFieldType) nb md nn w (e : ech F nb md nn) rows : pivots_resolved 0 w e rows.
Proof.
elim: rows e => [//|i rows IH] e /=; split; last exact: IH.
by move=> j; rewrite normr_gt0; case: (altP (eS e i j =P 0)) => [|_]; [left | right].
Qed.

(** x0 + x1 = b at the point (0, 2) with lower bounds 0: the factorization starts with x0,
    which is on its bound, as basic variable; x1 alone is a basis, so it becomes basic. *)
Example C79_case :
  let A : 'M[rat]_(1 + 0, 1 + (0 + 1)) := col_mx (row_mx 1%:M (row_mx 0 1%:M)) 0 in
  let fA : lufactors [realFieldType of rat] 1 0 (0 + 1) := LU id id 1%:M 0 1%:M (row_mx 0 1%:M) in
  let fJ : lufactors [realFieldType of rat] 0 0 1 := LU id id 0 0 0 0 in
  let d : pdata [realFieldType of rat] := PData (fun _ => 2) (fun _ => 0) (fun _ => 9) in
  let x : rawvec [realFieldType of rat] := fun i => if (i == 0)%N then 0 else 2 in
  let s := fun _ : 'I_1 => rshift 1 (rshift 0 ord0) : 'I_(1 + (0 + 1)) in
  let e := ext_update 0 (ech_compute fA) (ech_compute fJ) 0 (fun i => rf_weight d x i) id id id id id id in
  [/\ lu_contract A fA, spanning (col_mx A (0 : 'M_(0 + 0, 1 + (0 + 1)))) s,
      (forall a, off_bounds x (dxl d) (dxu d) (s a) /\ 2 <= `|x (s a)|),
      nat_of_ord (eQ (ech_compute fA) (lshift (0 + 1) 0)) = 0%N
    & nat_of_ord (xQ e (lshift 1 0)) = 1%N].
Proof.
move=> A fA fJ d x s e.
have CA : lu_contract A fA.
  split=> //=; try exact: unitmx1.
  rewrite mul_col_row !mul1mx !mul0mx mxsub_id block_mxEv; congr col_mx.
  by apply/matrixP => -[].
have SP : spanning (col_mx A (0 : 'M_(0 + 0, 1 + (0 + 1)))) s.
  move=> v; exists (const_mx (v 0 0)); apply/colP => i.
  have i0 : i = 0 by apply: val_inj; case: i => -[|i] //= H.
  have E1 : col_mx A (0 : 'M_(0 + 0, 1 + (0 + 1))) 0 (s ord0) = 1.
    have -> : (0 : 'I_(1 + 0 + (0 + 0))) = lshift (0 + 0) (lshift 0 0) by apply: val_inj.
    by rewrite col_mxEu col_mxEu row_mxEr row_mxEr mxE eqxx.
  rewrite i0 [RHS]mxE big_ord_recl big_ord0 addr0 [colsub _ _ _ _]mxE E1 mul1r.
  by rewrite [RHS]mxE.
have OB : forall a, off_bounds x (dxl d) (dxu d) (s a) /\ 2 <= `|x (s a)| by move=> a; split.
have E1 : nat_of_ord (xQ e (lshift 1 0)) = 1%N.
  have CJ : lu_contract (J2of (ech_weights 0 (fun i : 'I_(1 + (0 + 1)) => rf_weight d x i) (ech_compute fA) id id) (0 : 'M_(0 + 0, 1 + (0 + 1)))) fJ.
    split=> //; rewrite /lLbb /lUbb /=; try by rewrite unitmxE det_mx00 unitr1.
    by apply/matrixP => -[].
  have := @C79_basic_variables_partial [realFieldType of rat] 1 0 0 0 1 A 0 fA fJ 0 [::] [::] id id id id id id d x
    (lexx 0) CA I (fun _ _ => id) (fun _ _ => id) CJ I (fun _ _ => id) (fun _ _ => id) (fun _ _ => id) (fun _ _ => id)
    (resolved0 _ _ _) (resolved0 _ _ _) 2 1%N s isT SP OB 0 => [[[]]].
  rewrite -/(ext_update 0 (ech_compute fA) (ech_compute fJ) 0 (fun i => rf_weight d x i) id id id id id id) -/e.
  by case: (xQ e (lshift 1 0)) => -[|[|k]].
by split.
Qed.
