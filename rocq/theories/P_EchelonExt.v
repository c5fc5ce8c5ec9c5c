(** Property theorems C30, C31. *)
From mathcomp Require Import all_ssreflect all_fingroup all_algebra.
From Verif Require Import Echelon_model Echelon_spec Echelon_proofs EchelonOpt_proofs EchelonExt_model EchelonExt_spec EchelonExt_proofs.
Set Implicit Arguments.
Unset Strict Implicit.
Unset Printing Implicit Defensive.
Import Order.TTheory GRing.Theory Num.Theory.
Local Open Scope ring_scope.

(** ** C30.  [hist] is any history of earlier updates, as far as it touches the
    echelonizer of A; echelonizerJ has computed (now, or earlier for the same matrix and
    then been updated by [histJ]) the form of the reduced J.  Missing: the rows of
    R*[A;J]*Q below the basic ones need not be zero, as in C25. *)
Theorem C30_extended_partial : forall (F : realFieldType) (nbA mdA nbJ mdJ nnJ : nat)
    (A : 'M[F]_(nbA + mdA, nbA + (nbJ + nnJ))) (J : 'M[F]_(nbJ + mdJ, nbA + (nbJ + nnJ)))
    (fA : lufactors F nbA mdA (nbJ + nnJ)) (fJ : lufactors F nbJ mdJ nnJ) (th : F) w hist histJ KbA KnA KbJ KnJ Kb Kn,
  let eA := cur (ech_run th (obj_compute fA) hist) in
  let eA' := ech_weights th w eA KbA KnA in
  let eJ := cur (ech_run th (obj_compute fJ) histJ) in
  0 <= th -> lu_contract A fA -> ops_ok th (obj_compute fA) hist -> injective KbA -> injective KnA ->
  lu_contract (J2of eA' J) fJ -> ops_ok th (obj_compute fJ) histJ -> injective KbJ -> injective KnJ ->
  injective Kb -> injective Kn ->
  xcanonical A J (ext_update th eA eJ J w KbA KnA KbJ KnJ Kb Kn).
Proof.
move=> F nbA mdA nbJ mdJ nnJ A J fA fJ th w hist histJ KbA KnA KbJ KnJ Kb Kn eA eA' eJ th0 cA okA bA nA cJ okJ bJ nJ b n.
apply: xcanonE; apply: ext_order_canon => //; apply: assemble_canon.
  apply: order_canon => //; apply: swaps_canon => //; apply: run_canon => //; exact: compute_canon.
apply: order_canon => //; apply: swaps_canon => //; apply: run_canon => //; exact: compute_canon.
Qed.
Print Assumptions C30_extended_partial.

Theorem C30_ordering_and_cleanup : forall (F : realFieldType) (nbA mdA nbJ mdJ nnJ : nat)
    (A : 'M[F]_(nbA + mdA, nbA + (nbJ + nnJ))) (J : 'M[F]_(nbJ + mdJ, nbA + (nbJ + nnJ))) (x : xech F nbA mdA nbJ mdJ nnJ) Kb Kn sigma,
  injective Kb -> injective Kn -> xcanonical A J x ->
  xcanonical A J (ext_order x Kb Kn) /\ xcanonical A J (ext_clean sigma x).
Proof.
move=> F nbA mdA nbJ mdJ nnJ A J x Kb Kn sigma b n [QI RF _ E].
have c : xcanon A J x by split=> //; move: E; rewrite /xech_R mul_col_mx col_mxKu.
by split; apply: xcanonE; [apply: ext_order_canon | apply: ext_clean_canon].
Qed.
Print Assumptions C30_ordering_and_cleanup.

(** The basis found in two stages, first for A and then for the reduced J, cannot be improved
    by an exchange, provided no nonzero pivot is below the threshold (C28). *)
Theorem C30_exchange_optimal_partial : forall (F : realFieldType) (nbA mdA nbJ mdJ nnJ : nat)
    (J : 'M[F]_(nbJ + mdJ, nbA + (nbJ + nnJ))) (eA : ech F nbA mdA (nbJ + nnJ)) (eJ : ech F nbJ mdJ nnJ) (th : F) w KbA KnA KbJ KnJ Kb Kn,
  0 <= th -> pivots_resolved th w eA (enum 'I_nbA) ->
  pivots_resolved th (wJof (ech_weights th w eA KbA KnA) w) eJ (enum 'I_nbJ) ->
  xexchange_optimal w (ext_update th eA eJ J w KbA KnA KbJ KnJ Kb Kn).
Proof.
move=> F nbA mdA nbJ mdJ nnJ J eA eJ th w KbA KnA KbJ KnJ Kb Kn th0 rA rJ.
by apply: ext_order_opt; apply: assemble_opt; apply: weights_opt.
Qed.
Print Assumptions C30_exchange_optimal_partial.

(** A = [1 1], J = [0 1]: LU factors with S = 1 for A; J reduced is [1]. *)
Example C30_case :
  let A : 'M[rat]_(1 + 0, 1 + (1 + 0)) := col_mx (row_mx 1%:M (row_mx 1%:M 0)) 0 in
  let J : 'M[rat]_(1 + 0, 1 + (1 + 0)) := block_mx 0 (row_mx 1%:M 0) 0 0 in
  let fA : lufactors [realFieldType of rat] 1 0 (1 + 0) := LU id id 1%:M 0 1%:M (row_mx 1%:M 0) in
  let fJ : lufactors [realFieldType of rat] 1 0 0 := LU id id 1%:M 0 1%:M 0 in
  lu_contract A fA /\ lu_contract (J2of (ech_compute fA) J) fJ.
Proof.
split.
  split=> //=; try exact: unitmx1.
  rewrite mul_col_row !mul1mx !mul0mx mxsub_id block_mxEv; congr col_mx.
  by apply/matrixP => -[].
split=> //=; try exact: unitmx1.
rewrite mul_col_row !mul1mx !mul0mx [LHS]mxsub_id /J2of /J1of [eQ _]/= mxsub_id block_mxEh row_mxKl row_mxKr.
by rewrite col_mx0 mul0mx subr0 block_mxEv row_mx0.
Qed.

(** ** C31 *)
Theorem C31_numEquations_partial : forall (mA n : nat) (js : seq nat) (mJ : nat),
  (0 < n)%N -> (0 < mJ)%N ->
  num_equations (foldl xrows_update (xrows_init mA n) (rcons js mJ)) = (mA + mJ)%N.
Proof.
move=> mA n js mJ n0 m0; rewrite -cats1 foldl_cat.
have [HA HC] : rowsA (foldl xrows_update (xrows_init mA n) js) = mA /\ colsA (foldl xrows_update (xrows_init mA n) js) = n.
  elim/last_ind: js => [//|js j [IA IC]]; rewrite -cats1 foldl_cat /= /xrows_update.
  by case: ifP.
by rewrite /= /xrows_update HC muln_eq0 !eqn0Ngt n0 m0 /num_equations /= HA.
Qed.
Print Assumptions C31_numEquations_partial.

(** An update with an empty J after one with a non-empty J leaves the old count. *)
Theorem C31_numEquations_refuted : forall (mA n mJ : nat), (0 < n)%N -> (0 < mJ)%N ->
  num_equations (foldl xrows_update (xrows_init mA n) [:: mJ; 0%N]) <> (mA + 0)%N.
Proof.
move=> mA n mJ n0 m0; rewrite /= /xrows_update /= muln_eq0.
rewrite !eqn0Ngt n0 m0 /= /num_equations /= => /eqP; rewrite eqn_add2l.
by rewrite eqn0Ngt m0.
Qed.
Print Assumptions C31_numEquations_refuted.
