(** Property theorems C25-C29 and C65. *)
From mathcomp Require Import all_ssreflect all_fingroup all_algebra.
From Verif Require Import Echelon_model Echelon_spec Echelon_proofs EchelonOpt_proofs.
Set Implicit Arguments.
Unset Strict Implicit.
Unset Printing Implicit Defensive.
Import Order.TTheory GRing.Theory Num.Theory.
Local Open Scope ring_scope.

(** ** C25: every matrix, every rank.  The rows of R*A*Q below the first nb are missing:
    see [C25_all_rows_iff] for when they are zero and [C25_zero_rows_refuted]. *)
Theorem C25_compute_partial : forall (F : realFieldType) (nb md nn : nat) (A : 'M[F]_(nb + md, nb + nn)) (f : lufactors F nb md nn),
  lu_contract A f -> canonical A (ech_compute f) /\ nb = \rank A.
Proof. by move=> F nb md nn A f c; split; [apply/canonE; apply: compute_canon | rewrite (lu_rank c)]. Qed.
Print Assumptions C25_compute_partial.

Theorem C25_compute_full_row_rank : forall (F : realFieldType) (nb nn : nat) (A : 'M[F]_(nb + 0, nb + nn)) (f : lufactors F nb 0 nn),
  lu_contract A f -> canonical A (ech_compute f) /\ canonical_all A (ech_compute f).
Proof. by move=> F nb nn A f c; split; [apply/canonE; apply: compute_canon | apply: full_rank_all]. Qed.
Print Assumptions C25_compute_full_row_rank.

Theorem C25_all_rows_iff : forall (F : realFieldType) (nb md nn : nat) (A : 'M[F]_(nb + md, nb + nn)) (f : lufactors F nb md nn),
  lu_contract A f -> (canonical_all A (ech_compute f) <-> lLnb f = 0).
Proof. exact all_rows_iff. Qed.
Print Assumptions C25_all_rows_iff.

(** A = [4 2; 2 1], of rank 1, with its full-pivoting factors P = I, Q = I, L = [1; 1/2], U = [4 2] *)
Definition c11 (x : rat) : 'M[rat]_1 := const_mx x.
Lemma c11_mul x y : c11 x *m c11 y = c11 (x * y).
Proof. by apply/matrixP => i j; rewrite !mxE big_ord1 !mxE. Qed.
Lemma c11_unit x : x != 0 -> c11 x \in unitmx.
Proof. by move=> x0; rewrite unitmxE det_mx11 mxE unitfE. Qed.
Definition A42 : 'M[rat]_(1 + 1, 1 + 1) := block_mx (c11 4%:Q) (c11 2%:Q) (c11 2%:Q) (c11 1).
Definition f42 : lufactors [realFieldType of rat] 1 1 1 :=
  LU id id (c11 1) (c11 (2%:Q^-1)) (c11 4%:Q) (c11 2%:Q).
Example C25_case : lu_contract A42 f42.
Proof.
split=> //=; try exact: c11_unit.
by rewrite mul_col_row !c11_mul mxsub_id.
Qed.

(** The zero rows of the documented R*A*Q = [I S; 0 0] are not there in general: the
    bottom rows of R are rows of a permutation matrix, so R*A*Q repeats rows of A. *)
Theorem C25_zero_rows_refuted : exists (nb md nn : nat) (A : 'M[rat]_(nb + md, nb + nn)) (f : lufactors [realFieldType of rat] nb md nn),
  lu_contract A f /\ ~ canonical_all A (ech_compute f).
Proof.
exists 1%N, 1%N, 1%N, A42, f42; split; first exact: C25_case.
by move/(all_rows_iff C25_case) => /matrixP /(_ 0 0); rewrite !mxE.
Qed.
Print Assumptions C25_zero_rows_refuted.

(** ** C26 *)
Theorem C26_swap : forall (F : realFieldType) (nb md nn : nat) (A : 'M[F]_(nb + md, nb + nn)) (e : ech F nb md nn) ib jn,
  canonical A e -> eS e ib jn != 0 ->
  let e' := ech_swap e ib jn in
  [/\ canonical A e',
      basic e' ib = nonbasic e jn, nonbasic e' jn = basic e ib,
      (forall i, i != ib -> basic e' i = basic e i)
    & (forall j, j != jn -> nonbasic e' j = nonbasic e j)].
Proof.
move=> F nb md nn A e ib jn /canonE c nz e'; rewrite /e'; split.
- by apply/canonE; apply: swap_canon.
- by rewrite swap_basic eqxx.
- by rewrite swap_nonbasic eqxx.
- by move=> i /negPf ne; rewrite swap_basic ne.
- by move=> i /negPf ne; rewrite swap_nonbasic ne.
Qed.
Print Assumptions C26_swap.

Example C26_case : canonical A42 (ech_compute f42) /\ eS (ech_compute f42) 0 0 != 0.
Proof.
split; first by apply/canonE; apply: compute_canon; apply: C25_case.
have -> : eS (ech_compute f42) = c11 (4%:Q^-1 * 2%:Q).
  rewrite /=; apply: (can_inj (mulKmx (c11_unit (isT : 4%:Q != 0)))).
  by rewrite mulKVmx ?c11_unit // c11_mul.
by rewrite mxE.
Qed.

(** ** C27: every history of calls (the rows below nb are missing, as in C25) *)
Theorem C27_history_partial : forall (F : realFieldType) (nb md nn : nat) (A : 'M[F]_(nb + md, nb + nn)) (f : lufactors F nb md nn) (th : F) ops,
  lu_contract A f -> 0 <= th -> ops_ok th (obj_compute f) ops ->
  canonical A (cur (ech_run th (obj_compute f) ops)).
Proof.
move=> F nb md nn A f th ops c th0 ok; apply/canonE; apply: run_canon => //; exact: compute_canon.
Qed.
Print Assumptions C27_history_partial.

(** with full row rank nothing is missing *)
Theorem C27_history_full_row_rank : forall (F : realFieldType) (nb nn : nat) (A : 'M[F]_(nb + 0, nb + nn)) (f : lufactors F nb 0 nn) (th : F) ops,
  lu_contract A f -> 0 <= th -> ops_ok th (obj_compute f) ops ->
  canonical A (cur (ech_run th (obj_compute f) ops)) /\ canonical_all A (cur (ech_run th (obj_compute f) ops)).
Proof.
move=> F nb nn A f th ops c th0 ok.
have H : canonical A (cur (ech_run th (obj_compute f) ops)) by exact: C27_history_partial.
by split=> //; apply: canonical_full.
Qed.
Print Assumptions C27_history_full_row_rank.

Example C27_case : ops_ok 0 (obj_compute f42)
  [:: OpSwap _ 0 0; OpClean 1 1 100%:Q; OpWeights (fun _ => 1) id id; OpReset _ 1 1; OpOrder _ id id; OpComputeSame _ 1 1].
Proof. by split; [case: C26_case | repeat split]. Qed.

(** ** C28 *)
Theorem C28_sorted : forall (F : realFieldType) (nb md nn : nat) (e : ech F nb md nn) (th : F) (w : 'I_(nb + nn) -> F) Kb Kn,
  let e1 := weight_swaps th w e in let e' := ech_weights th w e Kb Kn in
  sorted_by (fun i => w (basic e1 i)) Kb -> sorted_by (fun j => w (nonbasic e1 j)) Kn ->
  (forall i j : 'I_nb, (i <= j)%N -> w (basic e' j) <= w (basic e' i)) /\
  (forall i j : 'I_nn, (i <= j)%N -> w (nonbasic e' j) <= w (nonbasic e' i)).
Proof.
by move=> F nb md nn e th w Kb Kn e1 e' sb sn; have [Hb Hn] := weights_sorted th w e Kb Kn; split; [apply: Hb | apply: Hn].
Qed.
Print Assumptions C28_sorted.

(** One pass over the basic variables suffices, provided no nonzero pivot is below the
    threshold (see [C28_threshold_refuted]). *)
Theorem C28_exchange_optimal_partial : forall (F : realFieldType) (nb md nn : nat) (e : ech F nb md nn) (th : F) (w : 'I_(nb + nn) -> F) Kb Kn,
  0 <= th -> pivots_resolved th w e (enum 'I_nb) -> exchange_optimal w (ech_weights th w e Kb Kn).
Proof. move=> F nb md nn e th w Kb Kn; exact: weights_opt. Qed.
Print Assumptions C28_exchange_optimal_partial.

(** ... and then the basis has the largest total weight among all sets of nb columns of A
    that have rank nb. *)
Theorem C28_maximum_weight_basis_partial : forall (F : realFieldType) (nb md nn : nat) (A : 'M[F]_(nb + md, nb + nn)) (e : ech F nb md nn)
    (th : F) (w : 'I_(nb + nn) -> F) Kb Kn (cols : 'I_nb -> 'I_(nb + nn)),
  canonical A e -> \rank A = nb -> injective Kb -> injective Kn -> 0 <= th -> pivots_resolved th w e (enum 'I_nb) ->
  \rank (colsub cols A) = nb -> \sum_i w (cols i) <= \sum_i w (basic (ech_weights th w e Kb Kn) i).
Proof.
move=> F nb md nn A e th w Kb Kn cols /canonE c rA bI nI th0 res rc.
apply: (@basis_max F nb md nn A) => //; last exact: weights_opt.
by apply: order_canon => //; apply: swaps_canon.
Qed.
Print Assumptions C28_maximum_weight_basis_partial.

(** with threshold zero the side condition always holds *)
Lemma resolved0 (F : realFieldType) (nb md nn : nat) (w : 'I_(nb + nn) -> F) rows (e : ech F nb md nn) : pivots_resolved 0 w e rows.
Proof.
elim: rows e => [//|i rows IH] e /=; split=> // j.
by case: (eS e i j =P 0) => [->|/eqP nz]; [left | right; rewrite normr_gt0].
Qed.
Example C28_case : pivots_resolved 0 (fun p => (p : nat)%:R) (ech_compute f42) (enum 'I_1) /\
  sorted_by (fun i => (basic (weight_swaps 0 (fun p => (p : nat)%:R) (ech_compute f42)) i : nat)%:R : rat) id /\ \rank A42 = 1%N.
Proof.
split; first exact: resolved0.
split; last exact: (lu_rank C25_case).
by split=> [i j|i j _]; [move=> -> | rewrite (ord1 i) (ord1 j) lexx].
Qed.

(** Any threshold (1e-8 in the code) makes the code overlook a heavier variable with a
    pivot not above the threshold: A = [1 th] with weights (0, 1). *)
Theorem C28_threshold_refuted : forall (F : realFieldType) (th : F), 0 < th ->
  exists (A : 'M[F]_(1 + 0, 1 + 1)) (f : lufactors F 1 0 1) (w : 'I_(1 + 1) -> F),
  lu_contract A f /\ ~ exchange_optimal w (ech_weights th w (ech_compute f) id id).
Proof.
move=> F th th0; pose f : lufactors F 1 0 1 := LU id id 1%:M (const_mx 0) 1%:M (const_mx th).
exists (col_mx (row_mx 1%:M (const_mx th)) 0), f, (fun p => (p : nat)%:R); split.
  split=> //=; try exact: unitmx1.
  rewrite mul_col_row !mul1mx mxsub_id block_mxEv; congr col_mx.
  by apply/matrixP => -[].
have SE : eS (ech_compute f) = const_mx th by rewrite /= invmx1 mul1mx.
have noswap : weight_swaps th (fun p => (p : nat)%:R) (ech_compute f) = ech_compute f.
  have cN : candidate th (fun p => (p : nat)%:R) (ech_compute f) 0 = None.
    rewrite /candidate SE; elim: (enum _) => [//|k l IH].
    by rewrite -[foldl _ _ _]/(foldl _ (if `|_| <= th then None else _) l) mxE ger0_norm ?lexx // ltW.
  rewrite /weight_swaps enum_ordSl enum_ord0.
  by rewrite -[foldl _ _ _]/(weight_pass _ _ _ _) /weight_pass cN.
move=> /(_ 0 0); rewrite /ech_weights noswap /nonbasic /basic.
have -> : eS (ech_order (ech_compute f) id id) = mxsub id id (eS (ech_compute f)) by [].
rewrite mxE SE mxE gt_eqF // => /(_ isT).
by rewrite /= !(unsplitK (inl _)) !(unsplitK (inr _)) /= addn0 ler10.
Qed.
Print Assumptions C28_threshold_refuted.

(** ** C29: after any history *)
Theorem C29_reset : forall (F : realFieldType) (nb md nn : nat) (f : lufactors F nb md nn) (th : F) ops,
  cur (ech_run th (obj_compute f) (rcons ops (OpReset F nb nn))) = ech_compute f.
Proof.
by move=> F nb md nn f th ops; rewrite /ech_run -cats1 foldl_cat /= -/(ech_run th (obj_compute f) ops) run_bak.
Qed.
Print Assumptions C29_reset.

Example C29_case : cur (ech_run 0 (obj_compute f42) [:: OpSwap _ 0 0]) <> ech_compute f42.
Proof.
move/(congr1 (fun e : ech [realFieldType of rat] 1 1 1 => basic e 0)).
rewrite -[cur _]/(ech_swap (ech_compute f42) 0 0) swap_basic eqxx => /(congr1 val).
by rewrite /= addn0.
Qed.

(** ** C65: the number of basic variables.  Right when every nonzero pivot is above the
    relative threshold and the largest is at least 10 eps ... *)
Theorem C65_rank_partial : forall (F : realFieldType) (eps th maxp : F) (piv : seq F),
  0 <= maxp -> 0 <= th -> 10%:R * eps <= maxp -> (forall p, p \in piv -> p = 0 \/ maxp * th < `|p|) ->
  num_basic eps th maxp piv = count (fun p => p != 0) piv.
Proof.
move=> F eps th maxp piv m0 t0 big H; rewrite /num_basic ltNge big /= /lu_rank_count; apply: eq_in_count => p pin.
case: (H _ pin) => [->|h]; first by rewrite normr0 eqxx ltNge mulr_ge0.
by rewrite h -normr_gt0 (le_lt_trans _ h) // mulr_ge0.
Qed.
Print Assumptions C65_rank_partial.

Example C65_case : num_basic (1 / 2%:Q) (1 / 2%:Q) 8%:Q [:: 8%:Q; 7%:Q; 0] = 2%N.
Proof. by []. Qed.

(** ... and zero as soon as the largest pivot is below 10 eps, whatever the matrix. *)
Theorem C65_tiny_matrix_has_rank_zero : forall (F : realFieldType) (eps th maxp : F) (piv : seq F),
  maxp < 10%:R * eps -> (forall p, p \in piv -> `|p| <= maxp) -> num_basic eps th maxp piv = 0%N.
Proof.
move=> F eps th maxp piv small H; rewrite /num_basic small /lu_rank_count mulr1.
by apply/eqP; rewrite -leqn0 leqNgt -has_count; apply/hasPn => p /H; rewrite leNgt.
Qed.
Print Assumptions C65_tiny_matrix_has_rank_zero.

Theorem C65_rank_refuted : forall (F : realFieldType) (eps th : F), 0 < eps ->
  exists (maxp : F) piv, [/\ forall p, p \in piv -> 0 < p <= maxp, maxp \in piv, size piv = 5%N
    & num_basic eps th maxp piv = 0%N].
Proof.
move=> F eps th e0; exists eps, (nseq 5 eps); split=> //.
- by move=> p /nseqP [-> _]; rewrite e0 lexx.
- by rewrite mem_nseq eqxx.
apply: C65_tiny_matrix_has_rank_zero; last by move=> p /nseqP [-> _]; rewrite gtr0_norm.
by rewrite -{1}[eps]mul1r ltr_pmul2r // ltr1n.
Qed.
Print Assumptions C65_rank_refuted.
