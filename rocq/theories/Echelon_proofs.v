From mathcomp Require Import all_ssreflect all_fingroup all_algebra.
From Verif Require Import Echelon_model Echelon_spec.
Set Implicit Arguments.
Unset Strict Implicit.
Unset Printing Implicit Defensive.
Local Open Scope ring_scope.
Import Order.TTheory GRing.Theory Num.Theory.
Local Open Scope ring_scope.

Section EchelonProofs.
Variables (F : realFieldType) (nb md nn : nat).
Variable A : 'M[F]_(nb + md, nb + nn).
Local Notation ech := (ech F nb md nn).
Implicit Types e : ech.

(** internal form of [canonical] *)
Definition canon e : Prop :=
  [/\ injective (eQ e), ech_R e \in unitmx & eR e *m colsub (eQ e) A = row_mx 1%:M (eS e)].
Lemma canonE e : canonical A e <-> canon e.
Proof. by rewrite /canonical /canon /ech_R mul_col_mx col_mxKu. Qed.

Lemma mxsub_mul p q r p' r' (f : 'I_p' -> 'I_p) (g : 'I_r' -> 'I_r) (X : 'M[F]_(p, q)) (Y : 'M[F]_(q, r)) :
  mxsub f g (X *m Y) = rowsub f X *m colsub g Y.
Proof. by apply/matrixP => i j; rewrite !mxE; apply: eq_bigr => k _; rewrite !mxE. Qed.

Lemma permrows_mul p (f : 'I_(nb + md) -> 'I_(nb + md)) (X : 'M[F]_(nb + md, p)) :
  permrows F f *m X = rowsub f X.
Proof.
apply/matrixP => i j; rewrite !mxE (bigD1 (f i)) //= !mxE eqxx mul1r big1 ?addr0 // => k.
by rewrite !mxE eq_sym => /negPf ->; rewrite mul0r.
Qed.

Lemma permrows_unit (f : 'I_(nb + md) -> 'I_(nb + md)) : injective f -> permrows F f \in unitmx.
Proof.
move=> fI; have -> : permrows F f = perm_mx (perm fI).
  by apply/matrixP => i j; rewrite !mxE permE.
exact: unitmx_perm.
Qed.

Lemma usubmx_mul p (X : 'M[F]_(nb + md)) (Y : 'M[F]_(nb + md, p)) : usubmx X *m Y = usubmx (X *m Y).
Proof. by rewrite -{2}(vsubmxK X) mul_col_mx col_mxKu. Qed.

Lemma compute_canon (f : lufactors F nb md nn) : lu_contract A f -> canon (ech_compute f).
Proof.
case=> PI QI UL UU E; split=> //=.
  rewrite /ech_R /=; set P := permrows F (lP f).
  have -> : col_mx (invmx (lUbb f) *m (invmx (lLbb f) *m usubmx P)) (dsubmx P) =
            block_mx (invmx (lUbb f) *m invmx (lLbb f)) 0 0 1%:M *m P.
    by rewrite -{3}(vsubmxK P) mul_block_col !mul0mx mul1mx addr0 add0r mulmxA.
  rewrite unitmx_mul permrows_unit // andbT unitmxE det_ublock det1 mulr1 det_mulmx.
  by rewrite !det_inv unitrM !unitrV -!unitmxE UL UU.
rewrite -!mulmxA usubmx_mul permrows_mul //.
have -> : rowsub (lP f) (colsub (lQ f) A) = mxsub (lP f) (lQ f) A by apply/matrixP => i j; rewrite !mxE.
rewrite E mul_col_mx col_mxKu mulKmx // mul_mx_row.
by rewrite mulVmx.
Qed.

Lemma row_mx_lsplit (S : 'M[F]_(nb, nn)) i j : row_mx 1%:M S i (lshift nn j) = (i == j)%:R.
Proof. by rewrite row_mxEl !mxE. Qed.

(** ** Swap *)
Definition elim (S : 'M[F]_(nb, nn)) (ib : 'I_nb) (jn : 'I_nn) : 'M[F]_nb :=
  \matrix_(i, k) if k == ib then (if i == ib then 1 / S ib jn else - S i jn * (1 / S ib jn)) else (i == k)%:R.
Definition unelim (S : 'M[F]_(nb, nn)) (ib : 'I_nb) (jn : 'I_nn) : 'M[F]_nb :=
  \matrix_(i, k) if k == ib then S i jn else (i == k)%:R.

Lemma swap_rowsE k (X : 'M[F]_(nb, k)) S ib jn : swap_rows X S ib jn = elim S ib jn *m X.
Proof.
apply/matrixP => i j; rewrite !mxE (bigD1 ib) //= !mxE eqxx; case: (i =P ib) => [->|ne].
  by rewrite big1 ?addr0 1?mulrC // => l /negPf H; rewrite !mxE H eq_sym H mul0r.
rewrite (bigD1 i) /=; last by apply/eqP.
rewrite mxE; move/eqP/negPf: ne => ->; rewrite eqxx !mul1r big1 ?addr0 => [|l /andP [/negPf H /negPf H2]].
  by rewrite [RHS]addrC !mulNr -mulrA [X ib j * _]mulrC.
by rewrite mxE H eq_sym H2 mul0r.
Qed.

Lemma elimK (S : 'M[F]_(nb, nn)) ib jn : S ib jn != 0 -> elim S ib jn *m unelim S ib jn = 1%:M.
Proof.
move=> nz; apply/matrixP => i j; rewrite -swap_rowsE !mxE.
case: (i =P ib) => [->|ne]; case: (j =P ib) => [->|nj].
- by rewrite eqxx div1r mulfV.
- by rewrite eq_sym; move/eqP/negPf: nj => ->; rewrite mul0r.
- by rewrite div1r mulfV // mulr1 subrr; move/eqP/negPf: ne => ->.
- by rewrite [ib == j]eq_sym; move/eqP/negPf: nj => ->; rewrite mul0r mulr0 subr0.
Qed.

Lemma elim_unit (S : 'M[F]_(nb, nn)) ib jn : S ib jn != 0 -> elim S ib jn \in unitmx.
Proof. by move=> nz; case: (mulmx1_unit (elimK nz)). Qed.

Lemma swap_canon e ib jn : eS e ib jn != 0 -> canon e -> canon (ech_swap e ib jn).
Proof.
move=> nz [QI RU E].
have lr (i : 'I_nb) (j : 'I_nn) : (lshift nn i == rshift nb j) = false.
  by apply/eqP => /(congr1 val) /= H; move: (ltn_ord i); rewrite H ltnNge leq_addr.
have rl (i : 'I_nb) (j : 'I_nn) : (rshift nb j == lshift nn i) = false by rewrite eq_sym lr.
set tau := tperm (lshift nn ib) (rshift nb jn).
have qE : forall p, eQ (ech_swap e ib jn) p = eQ e (tau p).
  move=> p; rewrite /= /tau; case: tpermP => [->|->|/eqP/negPf-> /eqP/negPf->] //; first by rewrite eqxx.
  by rewrite rl eqxx.
split.
- by move=> p q; rewrite !qE => /QI /perm_inj.
- rewrite /ech_R /= swap_rowsE.
  have -> : col_mx (elim (eS e) ib jn *m eR e) (eRb e) = block_mx (elim (eS e) ib jn) 0 0 1%:M *m ech_R e.
    by rewrite /ech_R mul_block_col !mul0mx mul1mx addr0 add0r.
  by rewrite unitmx_mul RU andbT unitmxE det_ublock det1 mulr1 -unitmxE elim_unit.
have -> : colsub (eQ (ech_swap e ib jn)) A = colsub tau (colsub (eQ e) A).
  by apply/matrixP => i p; rewrite [LHS]mxE [RHS]mxE mxE qE.
rewrite {1}/ech_swap [eR _]/= swap_rowsE.
have -> : elim (eS e) ib jn *m eR e *m colsub tau (colsub (eQ e) A) =
          colsub tau (elim (eS e) ib jn *m (eR e *m colsub (eQ e) A)).
  by rewrite mulmxA; apply/matrixP => i p; rewrite !mxE; apply: eq_bigr => k _; rewrite !mxE.
rewrite E -swap_rowsE; apply/matrixP => i p; rewrite [LHS]mxE.
case: (splitP p) => j pj.
  have -> : p = lshift nn j by apply/val_inj.
  rewrite row_mxEl [RHS]mxE; case: (j =P ib) => [->|/eqP nj].
    rewrite /tau tpermL mxE !row_mxEr.
    by case: (i =P ib) => _; rewrite div1r mulfV // ?mulr1 ?subrr.
  have -> : tau (lshift nn j) = lshift nn j.
    rewrite /tau tpermD //; last by rewrite rl.
    by rewrite eq_sym; apply: contra nj => /eqP/(congr1 val) /= H; apply/eqP/val_inj.
  rewrite mxE !row_mxEl !mxE [ib == j]eq_sym (negPf nj) mul0r mulr0 subr0.
  by case: (i =P ib) => [->|//]; rewrite eq_sym (negPf nj).
have -> : p = rshift nb j by apply/val_inj.
rewrite row_mxEr; case: (j =P jn) => [->|/eqP nj].
  rewrite /tau tpermR mxE !row_mxEl !mxE !eqxx mul1r.
  by case: (i =P ib) => _; rewrite ?sub0r mul1r // mulNr.
have -> : tau (rshift nb j) = rshift nb j.
  rewrite /tau tpermD ?lr //.
  by rewrite eq_sym; apply: contra nj => /eqP/(congr1 val) /= /addnI H; apply/eqP/val_inj.
by rewrite mxE !row_mxEr !mxE (negPf nj).
Qed.

(** ** Reordering *)
Lemma order_canon e Kb Kn : injective Kb -> injective Kn -> canon e -> canon (ech_order e Kb Kn).
Proof.
move=> bI nI [QI RU E].
have KI : injective (fun p : 'I_(nb + nn) => match split p with inl i => lshift nn (Kb i) | inr j => rshift nb (Kn j) end).
  move=> p q; case: (splitP p) => i pi; case: (splitP q) => j qj.
  - by move/(congr1 val) => /= /val_inj /bI H; apply/val_inj; rewrite /= pi qj H.
  - by move/(congr1 val) => /= H; move: (ltn_ord (Kb i)); rewrite H ltnNge leq_addr.
  - by move/(congr1 val) => /= H; move: (ltn_ord (Kb j)); rewrite -H ltnNge leq_addr.
  - by move/(congr1 val) => /= /addnI /val_inj /nI H; apply/val_inj; rewrite /= pi qj H.
split.
- move=> p q /= H; apply: KI; apply: QI; move: H.
  by case: (split p) => a; case: (split q) => b.
- have bP : (\matrix_(i, k) (Kb i == k)%:R : 'M[F]_nb) = perm_mx (perm bI).
    by apply/matrixP => i j; rewrite !mxE permE.
  have -> : ech_R (ech_order e Kb Kn) = block_mx (perm_mx (perm bI)) 0 0 1%:M *m ech_R e.
    rewrite /ech_R mul_block_col !mul0mx mul1mx addr0 add0r; congr col_mx.
    by rewrite -row_permE; apply/matrixP => i j; rewrite !mxE permE.
  by rewrite unitmx_mul RU andbT unitmxE det_ublock det1 mulr1 -unitmxE unitmx_perm.
have -> : eR (ech_order e Kb Kn) *m colsub (eQ (ech_order e Kb Kn)) A =
  mxsub Kb (fun p : 'I_(nb + nn) => match split p with inl i => lshift nn (Kb i) | inr j => rshift nb (Kn j) end)
    (eR e *m colsub (eQ e) A).
  apply/matrixP => i p; rewrite !mxE; apply: eq_bigr => k _; rewrite !mxE.
  by rewrite /=; case: (split p).
rewrite E; apply/matrixP => i p; rewrite [LHS]mxE; case: (splitP p) => j pj.
  have -> : p = lshift nn j by apply/val_inj.
  by rewrite !row_mxEl !mxE (inj_eq bI).
have -> : p = rshift nb j by apply/val_inj.
by rewrite !row_mxEr !mxE.
Qed.

(** ** Priority weights *)
Lemma candidate_pivot th w e i v j : 0 <= th -> candidate th w e i = Some (v, j) -> eS e i j != 0.
Proof.
move=> th0; rewrite /candidate; set g := (fun acc k => _).
have : (forall v' j', (None : option (F * 'I_nn)) = Some (v', j') -> eS e i j' != 0) by [].
elim: (enum 'I_nn) (None : option _) => [|k l IH] acc H /=; first by apply: H.
apply: IH => v' j'; rewrite /g; case: ifP => [_|/negbT]; first by apply: H.
rewrite -ltNge => hk.
have nz : eS e i k != 0 by rewrite -normr_gt0 (le_lt_trans th0).
case: acc H => [[mx j0]|] H; last by case=> _ <-.
by case: ifP => _; [case=> _ <- | apply: H].
Qed.

Lemma pass_canon th w e i : 0 <= th -> canon e -> canon (weight_pass th w e i).
Proof.
move=> th0 H; rewrite /weight_pass; case E: (candidate _ _ _ _) => [[wj j]|] //.
by case: ifP => // _; apply: swap_canon => //; apply: candidate_pivot E.
Qed.

Lemma swaps_canon th w e : 0 <= th -> canon e -> canon (weight_swaps th w e).
Proof.
move=> th0; rewrite /weight_swaps; elim: (enum 'I_nb) e => [//|i l IH] e H /=.
by apply: IH; apply: pass_canon.
Qed.

Lemma clean_canon sigma e : canon e -> canon (ech_clean sigma e).
Proof.
have K p q (X : 'M[F]_(p, q)) : clean_mx sigma X = X by apply/matrixP => i j; rewrite mxE addrK.
by case: e => R Rb S Q; rewrite /canon /ech_clean /ech_R /= !K.
Qed.

Lemma step_canon th s o : 0 <= th -> op_ok (cur s) o -> canon (cur s) -> canon (bak s) ->
  canon (cur (ech_step th s o)) /\ bak (ech_step th s o) = bak s.
Proof.
move=> th0 ok H H0; split; last by case: o ok.
case: o ok => [ib jn|w Kb Kn|Kb Kn|sigma||] //= ok.
- by apply: swap_canon.
- by case: ok => bI nI; apply: order_canon => //; apply: swaps_canon.
- by case: ok => bI nI; apply: order_canon.
- by apply: clean_canon.
Qed.

Lemma run_canon th ops s : 0 <= th -> canon (cur s) -> canon (bak s) -> ops_ok th s ops ->
  canon (cur (ech_run th s ops)).
Proof.
move=> th0; rewrite /ech_run; elim: ops s => [//|o ops IH] s H H0 /= [ok oks].
have [C B] := step_canon th0 ok H H0; by apply: IH; rewrite ?B.
Qed.

Lemma run_bak th ops (s : ech_obj F nb md nn) : bak (ech_run th s ops) = bak s.
Proof. by rewrite /ech_run; elim: ops s => [//|o ops IH] s /=; rewrite IH; case: o. Qed.

(** ** The bottom rows *)
Lemma bottom_compute (f : lufactors F nb md nn) : lu_contract A f ->
  dsubmx (ech_R (ech_compute f) *m colsub (eQ (ech_compute f)) A) = lLnb f *m row_mx (lUbb f) (lUbn f).
Proof.
case=> PI QI UL UU E; rewrite /ech_R mul_col_mx col_mxKd /=.
have -> (X : 'M[F]_(nb + md, nb + nn)) : dsubmx (permrows F (lP f)) *m X = dsubmx (permrows F (lP f) *m X).
  by rewrite -{2}(vsubmxK (permrows F (lP f))) mul_col_mx col_mxKd.
rewrite permrows_mul; have -> : rowsub (lP f) (colsub (lQ f) A) = mxsub (lP f) (lQ f) A by apply/matrixP => i j; rewrite !mxE.
by rewrite E mul_col_mx col_mxKd.
Qed.

Lemma all_rows_iff (f : lufactors F nb md nn) : lu_contract A f ->
  (canonical_all A (ech_compute f) <-> lLnb f = 0).
Proof.
move=> c; have [_ _ E] := compute_canon c; have B := bottom_compute c; case: c => _ _ _ UU _.
rewrite /canonical_all /ech_C; split=> H.
  move: B; rewrite H col_mxKd mul_mx_row => /esym/eqP; rewrite row_mx_eq0 => /andP [/eqP Z _].
  by rewrite -(mulmxK UU (lLnb f)) Z mul0mx.
by rewrite -[LHS]vsubmxK B H mul0mx /ech_R mul_col_mx col_mxKu E.
Qed.

Lemma full_rank_all (f : lufactors F nb md nn) : md = 0%N -> lu_contract A f -> canonical_all A (ech_compute f).
Proof.
move=> m0 c; apply/(all_rows_iff c); apply/matrixP => i j; exfalso.
by move: (ltn_ord i); rewrite [X in (_ < X)%N]m0.
Qed.

(** with full row rank every canonical form has no further rows *)
Lemma canonical_full e : md = 0%N -> canonical A e -> canonical_all A e.
Proof.
move=> m0 [_ _ E]; rewrite /canonical_all /ech_C -[LHS]vsubmxK E; congr col_mx.
by apply/matrixP => i j; exfalso; move: (ltn_ord i); rewrite [X in (_ < X)%N]m0.
Qed.
End EchelonProofs.
Lemma unit_inj (F : fieldType) k p (X : 'M[F]_k) (v : 'M[F]_(p, k)) : X \in unitmx -> v *m X = 0 -> v = 0.
Proof. by move=> U H; rewrite -(mulmxK U v) H mul0mx. Qed.
