From mathcomp Require Import all_ssreflect all_fingroup all_algebra.
From Verif Require Import LU_model LU_spec.
Set Implicit Arguments.
Unset Strict Implicit.
Unset Printing Implicit Defensive.
Import Order.TTheory GRing.Theory Num.Theory.
Local Open Scope ring_scope.

Section Proofs.
Variables (F : realFieldType) (n : nat).
Implicit Types (M A : 'M[F]_n) (b : 'cV[F]_n).

Lemma unit_lower_unit M : unit_lower M \in unitmx.
Proof.
rewrite unitmxE det_trig; first by rewrite big1 ?unitr1 // => i _; rewrite !mxE ltnn eqxx.
apply/is_trig_mxP => i j ij; rewrite !mxE ltnNge (ltnW ij) /=.
by case: eqP ij => // ->; rewrite ltnn.
Qed.

Lemma upper_det M : \det (upper M) = \prod_i M i i.
Proof.
rewrite -det_tr det_trig; first by apply: eq_bigr => i _; rewrite !mxE leqnn.
by apply/is_trig_mxP => i j ij; rewrite !mxE leqNgt ij.
Qed.

Lemma upper_unit M : (upper M \in unitmx) = [forall k, M k k != 0].
Proof.
rewrite unitmxE upper_det unitfE; apply/prodf_neq0/forallP => H k; first exact: H.
by move=> _; apply: H.
Qed.

Section Assemble.
Variables (eps : F) (f : lufac F n) (b : 'cV[F]_n).
Hypothesis eps0 : 0 <= eps.
Hypothesis piv0 : forall k : 'I_n, fM f k k = 0 -> forall i j : 'I_n, (k <= i)%N -> (k <= j)%N -> fM f i j = 0.
Hypothesis res : resolved eps f b.
Let M := fM f.
Let y := forward f b.
Definition dropped (l : seq 'I_n) (k : 'I_n) := (k \in l) && (M k k == 0).

Lemma assemble_inv (l : seq 'I_n) : uniq l ->
  let s := foldl (@assemble_step F eps n) (LUWs M y (fun=> true) n) l in
  [/\ forall i j : 'I_n, (i <= j)%N ->
        wU s i j = if dropped l j then (i == j)%:R else M i j,
      forall i, wy s i 0 = if dropped l i then 0 else y i 0,
      forall i, wli s i = ~~ dropped l i
    & wrank s = (n - count (fun k => M k k == 0%R) l)%N].
Proof.
elim/last_ind: l => [|l k IH].
  by move=> _; split => //=; rewrite ?subn0.
rewrite rcons_uniq => /andP [kl /IH]; rewrite foldl_rcons /=.
set s := foldl _ _ l => -[HU Hy Hl Hr].
have Dk : dropped l k = false by rewrite /dropped (negbTE kl).
have Ukk : wU s k k = M k k by rewrite HU // Dk.
have yk : wy s k 0 = y k 0 by rewrite Hy Dk.
have Dne i : i != k -> dropped (rcons l k) i = dropped l i.
  by move=> ik; rewrite /dropped mem_rcons inE (negbTE ik).
have Dkk : dropped (rcons l k) k = (M k k == 0) by rewrite /dropped mem_rcons mem_head.
rewrite /assemble_step Ukk yk.
have -> : (`|M k k| <= eps * `|y k 0|) = (M k k == 0).
  case: (M k k =P 0) => [->|/eqP h]; first by rewrite normr0 mulr_ge0.
  by apply/negbTE; rewrite -ltNge; apply: res.
case: (M k k =P 0) => [Mk|/eqP Mk]; split => //=.
- move=> i j ij; rewrite mxE; case: (j =P k) ij => [-> ij|/eqP jk ij].
    rewrite Dkk Mk eqxx andbT; case: (i =P k) => [_|/eqP ik] //=.
    have -> : (i < k)%N by rewrite ltn_neqAle ij andbT.
    by [] .
  rewrite andbF /= (Dne _ jk) -HU //; case: (i =P k) => //= ik; case: ifP => // _.
  subst i; rewrite HU //; case: ifP => // _.
    by rewrite eq_sym (negbTE jk).
  by rewrite (piv0 Mk).
- by move=> i; rewrite mxE; case: (i =P k) => [->|/eqP ik]; rewrite ?Dkk ?Mk ?eqxx // Dne.
- by move=> i; case: (i =P k) => [->|/eqP ik]; rewrite ?Dkk ?Mk ?eqxx // Dne.
- by rewrite -cats1 count_cat /= Mk eqxx addn0 addn1 Hr subnS.
- move=> i j ij; rewrite HU //; case: (j =P k) => [->|/eqP jk]; last by rewrite Dne.
  by rewrite Dk Dkk (negbTE Mk).
- by move=> i; rewrite Hy; case: (i =P k) => [->|/eqP ik]; rewrite ?Dkk ?Dk ?(negbTE Mk) // Dne.
- by move=> i; rewrite Hl; case: (i =P k) => [->|/eqP ik]; rewrite ?Dkk ?Dk ?(negbTE Mk) // Dne.
by rewrite -cats1 count_cat /= (negbTE Mk) !addn0 Hr.
Qed.

(** the triangular system that is solved *)
Lemma assembled_solve rank0 : (n != 1%N) || (upper M \in unitmx) ->
  let s := assembleU eps rank0 M y in
  exists z : 'cV[F]_n,
  [/\ upper_solve (wU s) (wy s) = Some z,
      forall k, M k k = 0 -> z k 0 = 0,
      forall k, M k k != 0 -> (upper M *m z) k 0 = y k 0,
      forall k, M k k = 0 -> (upper M *m z) k 0 = 0
    & n != 1%N -> (forall k, wli s k = (M k k != 0)) /\
      (wrank s + #|[pred k | M k k == 0%R]| = n)%N].
Proof.
move=> H s.
have [z [Ez Uz Hs]] : exists z : 'cV[F]_n, [/\ upper_solve (wU s) (wy s) = Some z,
    forall i : 'I_n, \sum_(j < n) (if (i <= j)%N then (if M j j == 0 then (i == j)%:R else M i j) else 0) * z j 0
      = if M i i == 0 then 0 else y i 0
  & n != 1%N -> (forall k, wli s k = (M k k != 0)) /\ (wrank s + #|[pred k | M k k == 0%R]| = n)%N].
  rewrite /s /assembleU; case: ifP => [n1|n1] /=.
    have Hk : forall k, M k k != 0.
      by move: H; rewrite n1 /= upper_unit => /forallP.
    rewrite /upper_solve; case: ifP => [/existsP [k]|_]; first by rewrite (negbTE (Hk k)).
    exists (invmx (upper M) *m y); split => //.
    move=> i; rewrite (negbTE (Hk i)).
    have /(congr1 (fun c : 'cV_n => c i 0)) : upper M *m (invmx (upper M) *m y) = y.
      by rewrite mulKVmx ?upper_unit; last exact/forallP.
    by rewrite mxE => <-; apply: eq_bigr => j _; rewrite [upper M i j]mxE (negbTE (Hk j)).
  have [] := @assemble_inv (rev (enum 'I_n)); first by rewrite rev_uniq enum_uniq.
  set t := foldl _ _ _ => HU Hy Hl Hr.
  have D i : dropped (rev (enum 'I_n)) i = (M i i == 0) by rewrite /dropped mem_rev mem_enum.
  have Ud : forall k, wU t k k != 0.
    by move=> k; rewrite HU // D; case: ifP => [_|->//]; rewrite eqxx oner_neq0.
  rewrite /upper_solve; case: ifP => [/existsP [k]|_]; first by rewrite (negbTE (Ud k)).
  exists (invmx (upper (wU t)) *m wy t); split => //.
    move=> i; rewrite -D -Hy.
    have /(congr1 (fun c : 'cV_n => c i 0)) : upper (wU t) *m (invmx (upper (wU t)) *m wy t) = wy t.
      by rewrite mulKVmx // upper_unit; apply/forallP.
    rewrite mxE => <-; apply: eq_bigr => j _; rewrite [upper (wU t) i j]mxE.
    by case: ifP => // ij; rewrite HU // D.
  move=> _; split=> [k|]; first by rewrite Hl D.
  rewrite Hr count_rev -sum1_count -big_filter.
  have -> : filter (fun k => M k k == 0) (enum 'I_n) = enum [pred k | M k k == 0].
    by rewrite enumT /enum_mem -enumT; apply: eq_filter.
  rewrite sum1_size -cardE subnK // -[X in (_ <= X)%N](card_ord n); exact: max_card.
have z0 k : M k k = 0 -> z k 0 = 0.
  move=> Mk; have := Uz k; rewrite Mk eqxx (bigD1 k) //= leqnn Mk !eqxx mul1r big1 ?addr0 //.
  move=> j jk; case: ifP => [kj|_]; last by rewrite mul0r.
  by case: ifP => _; rewrite ?(eq_sym k) ?(negbTE jk) ?mul0r // (piv0 Mk) ?mul0r.
have E i : (upper M *m z) i 0 = if M i i == 0 then 0 else y i 0.
  rewrite -Uz mxE; apply: eq_bigr => j _; rewrite mxE; case: ifP => // _.
  by case: (M j j =P 0) => // Mj; rewrite (z0 _ Mj) !mulr0.
exists z; split => //.
- by move=> k Mk; rewrite E (negbTE Mk).
- by move=> k Mk; rewrite E Mk eqxx.
Qed.
End Assemble.

Lemma permuted_mul (P Q : 'S_n) A (z : 'cV[F]_n) i :
  (A *m row_perm Q^-1%g z) (P i) 0 = (permuted P Q A *m z) i 0.
Proof.
rewrite !mxE (reindex_inj (@perm_inj _ Q)) /=; apply: eq_bigr => k _.
by rewrite !mxE permK.
Qed.

Lemma forwardK (f : lufac F n) b : unit_lower (fM f) *m forward f b = row_perm (fP f) b.
Proof. by rewrite mulKVmx ?unit_lower_unit. Qed.

Lemma full_piv_unit A (f : lufac F n) : full_piv A f -> A \in unitmx -> forall k, fM f k k != 0.
Proof.
move=> [E _] U; apply/forallP; rewrite -upper_unit unitmxE unitfE.
have : \det (permuted (fP f) (fQ f) A) != 0.
  have -> : permuted (fP f) (fQ f) A = row_perm (fP f) (col_perm (fQ f) A) by apply/matrixP => i j; rewrite !mxE.
  rewrite row_permE col_permE !det_mulmx !det_perm !mulf_neq0 ?signr_eq0 //.
  by rewrite -unitfE -unitmxE.
by rewrite E det_mulmx mulf_eq0 => /norP [].
Qed.

Section Main.
Variables (eps : F) (A : 'M[F]_n) (f : lufac F n) (b : 'cV[F]_n).
Hypotheses (eps0 : 0 <= eps) (fp : full_piv A f) (res : resolved eps f b).
Lemma lu_solve_spec rank0 : (n != 1%N) || (A \in unitmx) ->
  exists x li rk, lu_solve_full eps rank0 f b = (Some x, li, rk) /\
  [/\ forall k, fM f k k = 0 -> x (fQ f k) 0 = 0,
      forall k, fM f k k != 0 -> (A *m x) (fP f k) 0 = b (fP f k) 0,
      (exists x0, A *m x0 = b) -> A *m x = b
    & n != 1%N -> (forall k, li (fQ f k) = (fM f k k != 0)) /\
      (rk + #|[pred k | fM f k k == 0%R]| = n)%N].
Proof.
case: (fp) => E Z U.
have U' : (n != 1%N) || (upper (fM f) \in unitmx).
  case/orP: U => [-> //|U]; rewrite upper_unit; apply/orP; right; apply/forallP; exact: full_piv_unit U.
have [z [Ez z0 H1 H2 Hs]] := assembled_solve eps0 Z res rank0 U'.
rewrite /lu_solve_full; move: Ez Hs; set s := assembleU _ _ _ _ => -> Hs /=.
exists (row_perm (fQ f)^-1%g z), (fun i => wli s ((fQ f)^-1%g i)), (wrank s); split => //.
set y := forward f b in H1 *.
have row k : fM f k k != 0 -> (A *m row_perm (fQ f)^-1%g z) (fP f k) 0 = b (fP f k) 0.
  move=> Mk; rewrite permuted_mul E -mulmxA.
  have <- : (row_perm (fP f) b) k 0 = b (fP f k) 0 by rewrite mxE.
  rewrite -forwardK -/y !mxE; apply: eq_bigr => j _; rewrite [unit_lower _ _ _]mxE.
  case: ifP => [jk|_]; last by case: (k =P j) => [<-|_]; rewrite ?mul0r // H1.
  rewrite H1 //; apply: contra_neq Mk => Mj; exact: (Z _ Mj) (ltnW jk) (ltnW jk).
split => //.
- by move=> k Mk; rewrite mxE permK z0.
- case=> x0 Ax0.
  have Uy : upper (fM f) *m z = y.
    have Ey : y = upper (fM f) *m row_perm (fQ f) x0.
      rewrite /y /forward -Ax0.
      have -> : row_perm (fP f) (A *m x0) = permuted (fP f) (fQ f) A *m row_perm (fQ f) x0.
        apply/colP => i; rewrite -permuted_mul mxE; congr ((_ *m _) _ _).
        by apply/colP => j; rewrite !mxE permKV.
      by rewrite E -mulmxA mulKmx ?unit_lower_unit.
    apply/colP => k; case: (fM f k k =P 0) => [Mk|/eqP Mk]; last exact: H1.
    rewrite H2 // Ey mxE big1 // => j _; rewrite mxE; case: ifP => kj; last by rewrite mul0r.
    by rewrite (Z _ Mk) // mul0r.
  apply/colP => i; rewrite -[i](permKV (fP f)) permuted_mul E -mulmxA Uy forwardK mxE.
  by rewrite permKV.
- by move=> n1; case: (Hs n1) => Hl Hr; split => // k; rewrite permK Hl.
Qed.
End Main.

Lemma lu_solve_unit eps A (f : lufac F n) b : 0 <= eps -> full_piv A f -> A \in unitmx -> resolved eps f b ->
  exists2 x, lu_solve eps f b = Some x & A *m x = b.
Proof.
move=> e0 fp U res; have [|x [li [rk [E [_ _ H _]]]]] := lu_solve_spec e0 fp res 0; first by rewrite U orbT.
exists x; first by rewrite /lu_solve E.
by apply: H; exists (invmx A *m b); rewrite mulKVmx.
Qed.

Lemma rank_deltas_le (B : pred 'I_n) : (\rank (\sum_(k | B k) (delta_mx k k : 'M[F]_n))%R <= #|B|)%N.
Proof.
rewrite -sum1_card; elim/big_rec2: _ => [|k m X _ H]; first by rewrite mxrank0.
by apply: leq_trans (mxrank_add _ _) _; rewrite mxrank_delta leq_add2l.
Qed.

Lemma rank_deltas (B : pred 'I_n) : \rank (\sum_(k | B k) delta_mx k k : 'M[F]_n) = #|B|.
Proof.
apply/eqP; rewrite eqn_leq rank_deltas_le /=.
have : (n <= \rank (\sum_(k | B k) (delta_mx k k : 'M[F]_n))%R + #|predC B|)%N.
  have {1}<- : \rank (1%:M : 'M[F]_n) = n by rewrite mxrank1.
  have -> : (1%:M : 'M[F]_n) = \sum_(k | B k) delta_mx k k + \sum_(k | predC B k) delta_mx k k.
    have -> : \sum_(k | B k) delta_mx k k + \sum_(k | predC B k) delta_mx k k = \sum_k (delta_mx k k : 'M[F]_n) by rewrite [RHS](bigID B).
    apply/matrixP => i j; rewrite summxE (bigD1 i) //= big1 ?addr0.
      by rewrite !mxE eqxx (eq_sym i) .
    by move=> k ki; rewrite mxE eq_sym (negbTE ki).
  by apply: leq_trans (mxrank_add _ _) _; rewrite leq_add2l rank_deltas_le.
by rewrite -{1}(card_ord n) -(cardC B) leq_add2r.
Qed.

Lemma lu_rank_pivots A (f : lufac F n) : full_piv A f ->
  (\rank A + #|[pred k | fM f k k == 0%R]| = n)%N.
Proof.
case=> E Z; set M := fM f in E Z *.
have -> : \rank A = \rank (upper M).
  have -> : \rank A = \rank (permuted (fP f) (fQ f) A).
    have -> : permuted (fP f) (fQ f) A = row_perm (fP f) (col_perm (fQ f) A) by apply/matrixP => i j; rewrite !mxE.
    rewrite row_permE col_permE (eqmxMfull (_ *m _)) ?row_full_unit ?unitmx_perm //.
    by rewrite -[RHS]mxrank_tr trmx_mul eqmxMfull ?row_full_unit ?unitmx_tr ?unitmx_perm // mxrank_tr.
  by rewrite E eqmxMfull // row_full_unit unit_lower_unit.
pose U' : 'M[F]_n := \matrix_(i, j) if M i i == 0 then (i == j)%:R else M i j.
pose D : 'rV[F]_n := \row_i (M i i != 0)%:R.
have -> : upper M = diag_mx D *m upper U'.
  apply/matrixP => i j; rewrite mul_diag_mx !mxE; case: (M i i =P 0) => [Mi|/eqP Mi] /=.
    by rewrite mul0r; case: ifP => // ij; rewrite (Z _ Mi).
  by rewrite mul1r.
have UU : upper U' \in unitmx.
  by rewrite upper_unit; apply/forallP => k; rewrite mxE; case: ifP => [_|/negbT //]; rewrite eqxx oner_neq0.
rewrite -mxrank_tr trmx_mul eqmxMfull ?row_full_unit ?unitmx_tr // mxrank_tr.
have -> : diag_mx D = \sum_(k | M k k != 0) delta_mx k k.
  apply/matrixP => i j; rewrite summxE !mxE; case: (i =P j) => [<-|ij] /=.
    case: (M i i =P 0) => [Mi|/eqP Mi] /=.
      rewrite big1 // => k Mk; rewrite mxE; case: (i =P k) => //= ik.
      by rewrite -ik Mi eqxx in Mk.
    by rewrite (bigD1 i) //= mxE !eqxx big1 ?addr0 // => k /andP [_ ki]; rewrite mxE eq_sym (negbTE ki).
  by rewrite big1 // => k _; rewrite mxE; case: (i =P k) => // ik; case: (j =P k) => // jk; case: ij; rewrite ik jk.
rewrite (rank_deltas [pred k | M k k != 0]).
rewrite -[X in _ = X](card_ord n) -(cardID [pred k | M k k == 0] 'I_n) addnC; congr addn; apply: eq_card => k //.
by rewrite !inE andbT.
Qed.
End Proofs.
