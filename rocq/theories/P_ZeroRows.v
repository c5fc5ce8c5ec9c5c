(** Property theorems C27 and C30: the rows of R*A*Q beyond the basic ones. *)
From mathcomp Require Import all_ssreflect all_algebra.
From Verif Require Import Echelon_model Echelon_spec Echelon_proofs P_Echelon EchelonExt_model EchelonExt_spec EchelonExt_proofs P_EchelonExt.
Set Implicit Arguments.
Unset Strict Implicit.
Unset Printing Implicit Defensive.
Import Order.TTheory GRing.Theory Num.Theory.
Local Open Scope ring_scope.

Section ZeroRows.
Variables (F : realFieldType) (nb md nn : nat).
Lemma clean_id sigma p q (X : 'M[F]_(p, q)) : clean_mx sigma X = X.
Proof. by apply/matrixP => i j; rewrite mxE addrK. Qed.
(** no call changes the last rows of R *)
Lemma weights_bottom th w (e : ech F nb md nn) Kb Kn : eRb (ech_weights th w e Kb Kn) = eRb e.
Proof.
rewrite /ech_weights /= /weight_swaps; elim: (enum _) e => [//|i l IH] e /=; rewrite IH /weight_pass.
by case: candidate => [[v j]|] //; case: ifP.
Qed.
Lemma step_bottom th (s : ech_obj F nb md nn) o : eRb (cur s) = eRb (bak s) ->
  eRb (cur (ech_step th s o)) = eRb (bak s) /\ bak (ech_step th s o) = bak s.
Proof. by move=> E; case: o => /= [ib jn|w Kb Kn|Kb Kn|sg||]; rewrite ?weights_bottom ?clean_id. Qed.
Lemma run_bottom th (s : ech_obj F nb md nn) ops : eRb (cur s) = eRb (bak s) -> eRb (cur (ech_run th s ops)) = eRb (bak s).
Proof.
elim: ops s => [//|o ops IH] s E /=; have [H1 H2] := step_bottom th o E.
by rewrite IH ?H1 H2.
Qed.
(** reordering the columns does not hide a row *)
Lemma colsub_eq0 m n n' (q : 'I_n' -> 'I_n) (X : 'M[F]_(m, n)) : n' = n -> injective q -> (colsub q X == 0) = (X == 0).
Proof.
move=> E qi; apply/eqP/eqP => [/matrixP H|->]; last by apply/matrixP => i j; rewrite !mxE.
have qb : bijective q by apply: inj_card_bij => //; rewrite !card_ord E.
by case: qb => g _ gK; apply/matrixP => i j; have := H i (g j); rewrite !mxE gK.
Qed.
Lemma colsub_mul m k n n' (q : 'I_n' -> 'I_n) (X : 'M[F]_(m, k)) (Y : 'M[F]_(k, n)) : colsub q (X *m Y) = X *m colsub q Y.
Proof. by apply/matrixP => i j; rewrite !mxE; apply: eq_bigr => l _; rewrite !mxE. Qed.
Lemma bottom_zero (A : 'M[F]_(nb + md, nb + nn)) f : lu_contract A f -> (eRb (ech_compute f) *m A == 0) = (lLnb f == 0).
Proof.
move=> c; have B := bottom_compute c; case: (c) => _ QI _ UU _.
have -> : (lLnb f == 0) = (lLnb f *m row_mx (lUbb f) (lUbn f) == 0).
  rewrite mul_mx_row row_mx_eq0; apply/eqP/andP => [->|[/eqP Z _]]; first by rewrite !mul0mx eqxx.
  by rewrite -(mulmxK UU (lLnb f)) Z mul0mx.
by rewrite -B -(colsub_eq0 _ _ QI) // /ech_R mul_col_mx col_mxKd colsub_mul.
Qed.
End ZeroRows.

(** ** C27.  After any sequence of calls, all rows of R*A*Q are those of C() exactly when the factorization computed
    at the beginning has a zero block Lnb - it has not as soon as some row of A is a combination of the rows of the
    basis with a nonzero coefficient - so that for such an A no history gives the zero rows of C(). *)
Theorem C27_all_rows_iff : forall (F : realFieldType) (nb md nn : nat) (A : 'M[F]_(nb + md, nb + nn)) (f : lufactors F nb md nn) (th : F) ops,
  lu_contract A f -> 0 <= th -> ops_ok th (obj_compute f) ops ->
  (canonical_all A (cur (ech_run th (obj_compute f) ops)) <-> lLnb f = 0).
Proof.
move=> F nb md nn A f th ops c th0 ok.
have [QI _ E] := C27_history_partial c th0 ok.
have B := run_bottom th (s := obj_compute f) ops erefl.
set e := cur _ in QI E B *.
have Z := bottom_zero c; rewrite -[ech_compute f]/(bak (obj_compute f)) -B -(colsub_eq0 _ _ QI) // in Z.
have D : dsubmx (ech_R e *m colsub (eQ e) A) = colsub (eQ e) (eRb e *m A).
  by rewrite /ech_R mul_col_mx col_mxKd colsub_mul.
rewrite /canonical_all /ech_C; split.
  by move=> H; move: D; rewrite H col_mxKd => /esym/eqP; rewrite Z => /eqP.
by move=> /eqP; rewrite -Z => /eqP H; rewrite -[LHS]vsubmxK D H E.
Qed.
Print Assumptions C27_all_rows_iff.

(** the matrix [4 2; 2 1] of C25: every history *)
Theorem C27_zero_rows_refuted : exists (nb md nn : nat) (A : 'M[rat]_(nb + md, nb + nn)) (f : lufactors [realFieldType of rat] nb md nn),
  lu_contract A f /\ forall th ops, 0 <= th -> ops_ok th (obj_compute f) ops -> ~ canonical_all A (cur (ech_run th (obj_compute f) ops)).
Proof.
exists 1%N, 1%N, 1%N, A42, f42; split; first exact: C25_case.
move=> th ops th0 ok /(C27_all_rows_iff C25_case th0 ok) /matrixP /(_ 0 0).
by rewrite !mxE.
Qed.
Print Assumptions C27_zero_rows_refuted.

(** ** C30.  The same for the extended echelonizer: the rows of R*[A; J]*Q beyond the basic ones are zero exactly when the
    factorizations of A and of the reduced J have zero blocks Lnb. *)
Theorem C30_all_rows_iff : forall (F : realFieldType) (nbA mdA nbJ mdJ nnJ : nat)
    (A : 'M[F]_(nbA + mdA, nbA + (nbJ + nnJ))) (J : 'M[F]_(nbJ + mdJ, nbA + (nbJ + nnJ)))
    (fA : lufactors F nbA mdA (nbJ + nnJ)) (fJ : lufactors F nbJ mdJ nnJ) (th : F) w hist histJ KbA KnA KbJ KnJ Kb Kn,
  let eA := cur (ech_run th (obj_compute fA) hist) in
  let eA' := ech_weights th w eA KbA KnA in
  let eJ := cur (ech_run th (obj_compute fJ) histJ) in
  0 <= th -> lu_contract A fA -> ops_ok th (obj_compute fA) hist -> injective KbA -> injective KnA ->
  lu_contract (J2of eA' J) fJ -> ops_ok th (obj_compute fJ) histJ -> injective KbJ -> injective KnJ ->
  injective Kb -> injective Kn ->
  let x := ext_update th eA eJ J w KbA KnA KbJ KnJ Kb Kn in
  (dsubmx (xech_R x *m colsub (xQ x) (col_mx A J)) = 0 <-> lLnb fA = 0 /\ lLnb fJ = 0).
Proof.
move=> F nbA mdA nbJ mdJ nnJ A J fA fJ th w hist histJ KbA KnA KbJ KnJ Kb Kn eA eA' eJ th0 cA okA bA nA cJ okJ bJ nJ b n x.
have [QI _ _ _] := C30_extended_partial th0 cA okA bA nA cJ okJ bJ nJ b n; rewrite -/eA -/eJ -/x in QI.
set eJ' := ech_weights th (wJof eA' w) eJ KbJ KnJ.
have RA : eRb eA' = eRb (ech_compute fA) by rewrite /eA' weights_bottom /eA run_bottom.
have RJ : eRb eJ' = eRb (ech_compute fJ) by rewrite /eJ' weights_bottom /eJ run_bottom.
have [QA _ EA] : canonical A eA'.
  apply/canonE; apply: order_canon => //; apply: swaps_canon => //; apply: run_canon => //; exact: compute_canon.
have ER : eR eA' *m colsub (eQ eA') A = row_mx 1%:M (eS eA') by move: EA; rewrite /ech_R mul_col_mx col_mxKu.
have -> : dsubmx (xech_R x *m colsub (xQ x) (col_mx A J)) = colsub (xQ x) (xRb x *m col_mx A J).
  by rewrite /xech_R mul_col_mx col_mxKd colsub_mul.
have E0 : (colsub (xQ x) (xRb x *m col_mx A J) == 0) = (xRb x *m col_mx A J == 0) by apply: colsub_eq0 => //; rewrite addnA.
have XR : xRb x = block_mx (eRb eA') 0 (- (eRb eJ' *m J1of eA' J *m eR eA')) (eRb eJ') by [].
have E1 : (eRb eA' *m A == 0) = (lLnb fA == 0) by rewrite RA bottom_zero.
have E2 : (- (eRb eJ' *m J1of eA' J *m eR eA') *m A + eRb eJ' *m J == 0) = (lLnb fJ == 0).
  rewrite -(bottom_zero cJ) -RJ -(colsub_eq0 _ _ QA) //.
  have -> : colsub (eQ eA') (- (eRb eJ' *m J1of eA' J *m eR eA') *m A + eRb eJ' *m J) = row_mx 0 (eRb eJ' *m J2of eA' J).
    have -> (X Y : 'M[F]_(mdJ, nbA + (nbJ + nnJ))) : colsub (eQ eA') (X + Y) = colsub (eQ eA') X + colsub (eQ eA') Y by apply/matrixP => i j; rewrite !mxE.
    rewrite !colsub_mul mulNmx -(mulmxA _ (eR eA')) ER -(hsubmxK (colsub (eQ eA') J)) -/(J1of eA' J) !mul_mx_row mulmx1 opp_row_mx add_row_mx addNr.
    by rewrite /J2of mulmxBr mulmxA addrC.
  by rewrite row_mx_eq0 eqxx.
have {}E0 : (colsub (xQ x) (xRb x *m col_mx A J) == 0) = (lLnb fA == 0) && (lLnb fJ == 0).
  by rewrite E0 XR mul_block_col mul0mx addr0 col_mx_eq0 E1 E2.
split; first by move=> /eqP; rewrite E0 => /andP [/eqP -> /eqP ->].
by move=> [H1 H2]; apply/eqP; rewrite E0 H1 H2 !eqxx.
Qed.
Print Assumptions C30_all_rows_iff.

(** A = [4 2; 2 1] as in C25 and one further row J = [0 0] *)
Theorem C30_zero_rows_refuted : exists (nbA mdA nbJ mdJ nnJ : nat)
    (A : 'M[rat]_(nbA + mdA, nbA + (nbJ + nnJ))) (J : 'M[rat]_(nbJ + mdJ, nbA + (nbJ + nnJ)))
    (fA : lufactors [realFieldType of rat] nbA mdA (nbJ + nnJ)) (fJ : lufactors [realFieldType of rat] nbJ mdJ nnJ),
  lu_contract A fA /\ forall th w hist histJ KbA KnA KbJ KnJ Kb Kn,
  let eA := cur (ech_run th (obj_compute fA) hist) in
  let eJ := cur (ech_run th (obj_compute fJ) histJ) in
  0 <= th -> ops_ok th (obj_compute fA) hist -> injective KbA -> injective KnA -> ops_ok th (obj_compute fJ) histJ -> injective KbJ -> injective KnJ ->
  injective Kb -> injective Kn ->
  lu_contract (J2of (ech_weights th w eA KbA KnA) J) fJ /\
  let x := ext_update th eA eJ J w KbA KnA KbJ KnJ Kb Kn in
  xcanonical A J x /\ dsubmx (xech_R x *m colsub (xQ x) (col_mx A J)) <> 0.
Proof.
pose fJ : lufactors [realFieldType of rat] 0 1 1 := LU id id 0 0 0 0.
exists 1%N, 1%N, 0%N, 1%N, 1%N, A42, 0, f42, fJ; split; first exact: C25_case.
move=> th w hist histJ KbA KnA KbJ KnJ Kb Kn eA eJ th0 okA bA nA okJ bJ nJ b n.
have cJ : lu_contract (J2of (ech_weights th w eA KbA KnA) 0) fJ.
  have U (X : 'M[rat]_0) : X \in unitmx by rewrite unitmxE det_mx00 unitr1.
  split=> //; try exact: U.
  rewrite mul_col_mx; apply/matrixP => i j; rewrite !mxE.
  rewrite big1 ?subr0; last by move=> k _; rewrite !mxE mul0r.
  by case: splitP => k _; rewrite !mxE big_ord0.
split=> // x; split; first exact: (@C30_extended_partial _ 1 1 0 1 1 A42 0 f42 fJ th w hist histJ KbA KnA KbJ KnJ Kb Kn th0 C25_case okA bA nA cJ okJ bJ nJ b n).
move=> /(@C30_all_rows_iff _ 1 1 0 1 1 A42 0 f42 fJ th w hist histJ KbA KnA KbJ KnJ Kb Kn th0 C25_case okA bA nA cJ okJ bJ nJ b n) [] /matrixP /(_ 0 0) H _.
by move: H; rewrite !mxE.
Qed.
Print Assumptions C30_zero_rows_refuted.
