(** Property theorems C33-C35. *)
From mathcomp Require Import all_ssreflect all_fingroup all_algebra.
From Verif Require Import LU_model LU_spec LU_proofs.
Set Implicit Arguments.
Unset Strict Implicit.
Unset Printing Implicit Defensive.
Import Order.TTheory GRing.Theory Num.Theory.
Local Open Scope ring_scope.

(** ** C33: every nonsingular system, of any size and any pivot order, whose right-hand
    side is resolved.  Missing: right-hand sides of which an eliminated entry is 1/eps
    times its pivot or more, see [C33_nonsingular_refuted]. *)
Theorem C33_nonsingular_partial : forall (F : realFieldType) (n : nat) (eps : F) (A : 'M[F]_n) (f : lufac F n) (b : 'cV[F]_n),
  0 <= eps -> full_piv A f -> A \in unitmx -> resolved eps f b ->
  exists2 x, lu_solve eps f b = Some x & A *m x = b.
Proof.
by move=> F n eps A f b; exact: lu_solve_unit.
Qed.
Print Assumptions C33_nonsingular_partial.

(** with eps = 0, i.e. discarding only equations with a zero pivot, nothing is missing *)
Theorem C33_eps0 : forall (F : realFieldType) (n : nat) (A : 'M[F]_n) (f : lufac F n) (b : 'cV[F]_n),
  full_piv A f -> A \in unitmx -> exists2 x, lu_solve 0 f b = Some x & A *m x = b.
Proof.
move=> F n A f b fp U; apply: C33_nonsingular_partial fp U _ => //.
by move=> k Mk; rewrite mul0r normr_gt0.
Qed.
Print Assumptions C33_eps0.

(** The identity of order 2 with b = (1/eps, 1/eps): the answer is x = 0. *)
Definition fI (F : realFieldType) n (M : 'M[F]_n) : lufac F n := LUFac 1%g 1%g M.
Lemma unit_lower1 (F : realFieldType) n : unit_lower (1%:M : 'M[F]_n) = 1%:M.
Proof. by apply/matrixP => i j; rewrite !mxE; case: ifP => // ji; case: eqP ji => // ->; rewrite ltnn. Qed.
Lemma upper1 (F : realFieldType) n : upper (1%:M : 'M[F]_n) = 1%:M.
Proof. by apply/matrixP => i j; rewrite !mxE; case: ifP => // /negbT; case: eqP => // ->; rewrite leqnn. Qed.
Lemma permuted1 (F : realFieldType) n (A : 'M[F]_n) : permuted 1%g 1%g A = A.
Proof. by apply/matrixP => i j; rewrite !mxE !perm1. Qed.
Lemma fI_full (F : realFieldType) n : full_piv (1%:M : 'M[F]_n) (fI 1%:M).
Proof.
split=> /=; first by rewrite permuted1 unit_lower1 upper1 mul1mx.
by move=> k; rewrite mxE eqxx => /eqP; rewrite oner_eq0.
Qed.
Lemma fI_forward (F : realFieldType) n (b : 'cV[F]_n) : forward (fI 1%:M) b = b.
Proof. by rewrite /forward /= unit_lower1 invmx1 mul1mx row_perm1. Qed.

Example C33_case (F : realFieldType) n : full_piv (1%:M : 'M[F]_n) (fI 1%:M) /\ resolved (2%:R^-1) (fI (1%:M : 'M[F]_n)) (const_mx 1).
Proof.
split; first exact: fI_full.
by move=> k _; rewrite fI_forward !mxE eqxx normr1 mulr1 invf_lt1 ?ltr1n ?ltr0n.
Qed.

Lemma enum2 : enum 'I_2 = [:: ord0; lift ord0 ord0].
Proof. by apply: (inj_map val_inj); rewrite val_enum_ord. Qed.

Section Steps.
Variables (F : realFieldType) (eps : F) (n : nat) (s : luws F n) (k : 'I_n).
Definition dropst : luws F n :=
  LUWs (\matrix_(i, j) if (i == k) && (j == k) then 1 else if (j == k) && (i < k)%N then 0
                       else if (i == k) && (n - k <= j)%N then 0 else wU s i j)
       (\col_i if i == k then 0 else wy s i 0) (fun i => if i == k then false else wli s i) (wrank s).-1.
Lemma drop_step : `|wU s k k| <= eps * `|wy s k 0| -> assemble_step eps s k = dropst.
Proof. by rewrite /assemble_step => ->. Qed.
Lemma keep_step : eps * `|wy s k 0| < `|wU s k k| -> assemble_step eps s k = s.
Proof. by rewrite /assemble_step ltNge => /negbTE ->. Qed.
End Steps.

Theorem C33_nonsingular_refuted : forall (F : realFieldType) (eps : F), 0 < eps ->
  exists (A : 'M[F]_2) (f : lufac F 2) (b : 'cV[F]_2),
  [/\ full_piv A f, A \in unitmx & exists2 x, lu_solve eps f b = Some x & A *m x <> b].
Proof.
move=> F eps e0; exists 1%:M, (fI 1%:M), (const_mx eps^-1); split; [exact: fI_full | exact: unitmx1 |].
exists 0; last first.
  by rewrite mulmx0 => /matrixP /(_ 0 0) /eqP; rewrite !mxE eq_sym invr_eq0 gt_eqF.
rewrite /lu_solve /lu_solve_full fI_forward /assembleU /= enum2 /rev.
have E : `|1 : F| <= eps * `|eps^-1| by rewrite normr1 ger0_norm ?invr_ge0 ?(ltW e0) // mulfV ?lexx ?lt0r_neq0.
rewrite [foldl _ _ _]/= drop_step ?mxE // drop_step ?mxE //=.
rewrite /upper_solve; case: ifP => [/existsP [k]|_].
  by rewrite !mxE; case: k => -[|[|//]] H /=; rewrite oner_eq0.
rewrite /= [X in _ *m X](_ : _ = 0); last by apply/colP => -[[|[|//]] H]; rewrite !mxE.
by rewrite mulmx0; congr Some; apply/colP => i; rewrite !mxE.
Qed.
Print Assumptions C33_nonsingular_refuted.

(** ** C34: systems of any rank.  The unknowns of zero pivots are set to zero, the
    equations of the other pivots hold, a consistent system is solved; is_li marks the
    discarded unknowns and rank() is the rank of A.  Missing: n = 1 and right-hand sides
    that are not resolved, see [C34_zero_refuted] and [C34_one_equation_refuted]. *)
Theorem C34_dependent_partial : forall (F : realFieldType) (n : nat) (eps : F) (A : 'M[F]_n) (f : lufac F n) (b : 'cV[F]_n) (rank0 : nat),
  n <> 1%N -> 0 <= eps -> full_piv A f -> resolved eps f b ->
  exists x li rk, lu_solve_full eps rank0 f b = (Some x, li, rk) /\
  [/\ forall k, fM f k k = 0 -> x (fQ f k) 0 = 0,
      forall k, fM f k k != 0 -> (A *m x) (fP f k) 0 = b (fP f k) 0,
      (exists x0, A *m x0 = b) -> A *m x = b,
      forall k, li (fQ f k) = (fM f k k != 0)
    & rk = \rank A].
Proof.
move=> F n eps A f b rank0 /eqP n1 e0 fp res.
have [|x [li [rk [E [H1 H2 H3 H4]]]]] := lu_solve_spec e0 fp res rank0; first by rewrite n1.
exists x, li, rk; split => //; have [Hl Hr] := H4 n1; split => //.
by apply/eqP; rewrite -(eqn_add2r #|[pred k | fM f k k == 0%R]|) Hr lu_rank_pivots.
Qed.
Print Assumptions C34_dependent_partial.

(** a singular consistent system of order 2: x + y = 1 twice *)
Definition M11 (F : realFieldType) : 'M[F]_2 := \matrix_(i, j) if (i == 1) && (j == 1) then 0 else 1.
Example C34_case (F : realFieldType) (eps : F) : 0 <= eps < 1 ->
  [/\ full_piv (const_mx 1 : 'M[F]_2) (fI (M11 F)), (\rank (const_mx 1%R : 'M[F]_2) < 2)%N &
      resolved eps (fI (M11 F)) (const_mx 1)].
Proof.
move=> /andP [e0 e1].
have fp : full_piv (const_mx 1 : 'M[F]_2) (fI (M11 F)).
  split=> [|k] /=.
    rewrite permuted1; apply/matrixP => i j; rewrite !mxE big_ord_recl big_ord1 !mxE.
    by case: i j => -[|[|//]] Hi [[|[|//]] Hj]; rewrite /= ?(mulr0, mul0r, mulr1, addr0).
  by rewrite mxE; case: k => -[|[|//]] Hk /= => [/eqP|_ [[|[|//]] Hi] [[|[|//]] Hj]]; rewrite ?oner_eq0 // mxE.
split=> //.
  have := lu_rank_pivots fp; set z := #|_| => H.
  have z0 : (0 < z)%N by apply/card_gt0P; exists 1; rewrite inE mxE.
  by rewrite -[X in (_ < X)%N]H -[X in (X < _)%N]addn0 ltn_add2l.
move=> k Mk; have k0 : k = 0 by case: k Mk => -[|[|//]] Hk; [move=> _; apply: val_inj | rewrite mxE /= eqxx].
rewrite k0.
have L : unit_lower (M11 F) *m (\col_i (i == 0)%:R) = row_perm 1%g (const_mx 1).
  apply/colP => i; rewrite !mxE big_ord_recl big_ord1 !mxE.
  by case: i => -[|[|//]] Hi; rewrite /= ?(mulr0, mul0r, mulr1, addr0).
have -> : forward (fI (M11 F)) (const_mx 1) = \col_i (i == 0)%:R.
  by rewrite /forward /= -L mulKmx // unit_lower_unit.
by rewrite !mxE eqxx normr1 mulr1.
Qed.

(** U = [1 1; 0 1] and a huge first right-hand side: equation 0 is flagged as linearly
    dependent (is_li is false) but its unknown is not set to zero. *)
Definition U11 (F : realFieldType) : 'M[F]_2 := \matrix_(i, j) if (j < i)%N then 0 else 1.
Theorem C34_zero_refuted : forall (F : realFieldType) (eps : F), 0 < eps ->
  exists (A : 'M[F]_2) (f : lufac F 2) (b x : 'cV[F]_2) li rk,
  [/\ full_piv A f, lu_solve_full eps 0 f b = (Some x, li, rk), li 0 = false & x 0 0 <> 0].
Proof.
move=> F eps e0.
pose b : 'cV[F]_2 := \col_i if i == 0 then eps^-1 else (eps + eps)^-1.
pose c := (eps + eps)^-1.
have L1 : unit_lower (U11 F) = 1%:M.
  apply/matrixP => i j; rewrite !mxE; case: ltnP => [ji|_] //.
  by case: eqP ji => // ->; rewrite ltnn.
have fwd : forward (fI (U11 F)) b = b by rewrite /forward /= L1 invmx1 mul1mx row_perm1.
have ee : 0 < eps + eps by rewrite addr_gt0.
have E0 : `|1 : F| <= eps * `|eps^-1| by rewrite normr1 ger0_norm ?invr_ge0 ?(ltW e0) // mulfV ?lexx ?lt0r_neq0.
have E1 : eps * `|(eps + eps)^-1| < `|1 : F|.
  rewrite normr1 ger0_norm ?invr_ge0 ?(ltW ee) // ltr_pdivr_mulr // mul1r.
  by rewrite ltr_addr.
have fp : full_piv (U11 F) (fI (U11 F)).
  split=> [|k] /=.
    rewrite permuted1 L1 mul1mx; apply/matrixP => i j; rewrite !mxE.
    by case: ltnP.
  by rewrite mxE ltnn => /eqP; rewrite oner_eq0.
pose x : 'cV[F]_2 := \col_i if i == 0 then - c else c.
exists (U11 F), (fI (U11 F)), b, x.
set r := lu_solve_full eps 0 (fI (U11 F)) b.
have Er : r = (Some x, (fun i => wli (dropst (LUWs (U11 F) b (fun=> true) 2) ord0) ((1 : 'S_2)^-1%g i)), 1%N).
  rewrite /r /lu_solve_full fwd /assembleU /= enum2 /rev [foldl _ _ _]/=.
  rewrite (@keep_step F eps 2 _ (lift ord0 ord0)) ?mxE // drop_step ?mxE //; congr (_, _, _).
  rewrite /upper_solve; case: ifP => [/existsP [k]|_].
    by rewrite !mxE ltnn andbb; case: k => -[|[|//]] H /=; rewrite oner_eq0.
  rewrite /= [X in _ *m X](_ : _ = upper (wU (dropst (LUWs (U11 F) b (fun=> true) 2) ord0)) *m x).
    rewrite mulKmx; first by congr Some; apply/colP => i; rewrite mxE invg1 perm1.
    rewrite upper_unit; apply/forallP => k; rewrite !mxE ltnn andbb.
    by case: k => -[|[|//]] H /=; rewrite oner_eq0.
  apply/colP => i; rewrite !mxE big_ord_recl big_ord1 !mxE.
  by case: i => -[|[|//]] Hi; rewrite /= ?(mul1r, mulr1, mul0r, mulr0, addr0, add0r, addNr).
exists (fun i => wli (dropst (LUWs (U11 F) b (fun=> true) 2) ord0) ((1 : 'S_2)^-1%g i)), 1%N; split => //.
  by rewrite invg1 /= perm1.
by apply/eqP; rewrite mxE eqxx oppr_eq0 invr_eq0 gt_eqF.
Qed.
Print Assumptions C34_zero_refuted.

(** One equation 0*x = 0: consistent, but the code divides by zero (the check is skipped
    for n = 1), and rank() keeps whatever value it had. *)
Theorem C34_one_equation_refuted : forall (F : realFieldType) (eps : F) (rank0 : nat), 0 <= eps ->
  exists (A : 'M[F]_1) (f : lufac F 1) (b : 'cV[F]_1),
  [/\ full_piv A f, resolved eps f b, exists x0, A *m x0 = b &
      exists li, lu_solve_full eps rank0 f b = (None, li, rank0)].
Proof.
move=> F eps rank0 e0; exists 0, (fI 0), 0; split.
- split=> [|k _ i j _ _]; last by rewrite mxE.
  rewrite permuted1; apply/matrixP => i j; rewrite !mxE big_ord1 !mxE /=.
  by rewrite ?if_same mulr0.
- by move=> k; rewrite mxE eqxx.
- by exists 0; rewrite mulmx0.
rewrite /lu_solve_full /assembleU eqxx /=; exists (fun=> true); congr (_, _, _).
by rewrite /upper_solve; case: ifP => // /existsP []; exists 0; rewrite mxE.
Qed.
Print Assumptions C34_one_equation_refuted.

(** ** C35.  P() and the triangular factors are right, but Q() returns P, so the product
    is a factorization only if the two permutations act alike on A.  *)
Definition accessors_factor (F : realFieldType) n (A : 'M[F]_n) (f : lufac F n) : Prop :=
  permuted (lu_P f) (lu_Q f) A = unit_lower (fM f) *m upper (fM f).
Theorem C35_accessors_partial : forall (F : realFieldType) (n : nat) (A : 'M[F]_n) (f : lufac F n),
  full_piv A f -> (accessors_factor A f <-> col_perm (fQ f) A = col_perm (fP f) A).
Proof.
move=> F n A f [E _]; rewrite /accessors_factor -E; split => [|H].
  move=> /matrixP H; apply/matrixP => i j; have := H ((fP f)^-1%g i) j.
  by rewrite !mxE permKV.
by apply/matrixP => i j; move/matrixP: H => /(_ (fP f i) j); rewrite !mxE.
Qed.
Print Assumptions C35_accessors_partial.

(** A = [0 1; 1 0] can be factored with P = I, Q = (0 1), L = U = I. *)
Theorem C35_accessors_refuted : forall F : realFieldType, exists (A : 'M[F]_2) (f : lufac F 2),
  full_piv A f /\ ~ accessors_factor A f.
Proof.
move=> F; exists (\matrix_(i, j) (i != j)%:R), (LUFac 1%g (tperm 0 1) 1%:M).
have fp : full_piv (\matrix_(i, j) (i != j)%:R : 'M[F]_2) (LUFac 1%g (tperm 0 1) 1%:M).
  split=> /=.
    rewrite unit_lower1 upper1 mul1mx; apply/matrixP => i j; rewrite !mxE perm1.
    have [-> | ->] : j = 0 \/ j = 1 by case: j => -[|[|//]] Hj; [left | right]; apply: val_inj.
      by rewrite tpermL; case: i => -[|[|//]] Hi.
    by rewrite tpermR; case: i => -[|[|//]] Hi.
  by move=> k; rewrite mxE eqxx => /eqP; rewrite oner_eq0.
split=> // /(C35_accessors_partial fp) /matrixP /(_ 0 0).
by rewrite !mxE /= tpermL perm1 => /eqP; rewrite oner_eq0.
Qed.
Print Assumptions C35_accessors_refuted.
