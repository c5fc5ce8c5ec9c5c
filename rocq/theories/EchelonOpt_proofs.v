From mathcomp Require Import all_ssreflect all_fingroup all_algebra.
From Verif Require Import Echelon_model Echelon_spec Echelon_proofs.
Set Implicit Arguments.
Unset Strict Implicit.
Unset Printing Implicit Defensive.
Import Order.TTheory GRing.Theory Num.Theory.
Local Open Scope ring_scope.

Section Opt.
Variables (F : realFieldType) (nb md nn : nat).
Local Notation ech := (ech F nb md nn).
Implicit Types e : ech.

Definition row_opt (w : 'I_(nb + nn) -> F) e i := forall j, eS e i j != 0 -> w (nonbasic e j) <= w (basic e i).

Lemma candidate_spec th w e i : 0 <= th -> (forall j, eS e i j = 0 \/ th < `|eS e i j|) ->
  match candidate th w e i with
  | Some (v, j) => v = w (nonbasic e j) /\ forall k, eS e i k != 0 -> w (nonbasic e k) <= v
  | None => forall k, eS e i k = 0
  end.
Proof.
move=> th0 cl; rewrite /candidate; set g := (fun acc k => _).
have clE k : (`|eS e i k| <= th) = (eS e i k == 0).
  by case: (cl k) => [->|big]; [rewrite normr0 th0 eqxx | rewrite leNgt big -normr_eq0 gt_eqF // (le_lt_trans th0)].
pose P (seen : seq 'I_nn) (acc : option (F * 'I_nn)) := match acc with
  | Some (v, j) => v = w (nonbasic e j) /\ forall k, k \in seen -> eS e i k != 0 -> w (nonbasic e k) <= v
  | None => forall k, k \in seen -> eS e i k = 0 end.
suff H : forall l seen acc, P seen acc -> P (seen ++ l) (foldl g acc l).
  have H0 : P [::] None by [].
  move: (H (enum 'I_nn) _ _ H0); rewrite /P cat0s; case: (foldl _ _ _) => [[v j] [vE {}H0]|{}H0].
    by split=> // k; apply: H0; rewrite mem_enum.
  by move=> k; apply: H0; rewrite mem_enum.
elim=> [|k l IH] seen acc Pa; first by rewrite cats0.
rewrite -cat_rcons /=; apply: IH; rewrite /g clE; case: eqP => [z|/eqP nz].
  case: acc Pa => [[v j] [vE H]|H] /=.
    by split=> // k'; rewrite mem_rcons inE => /orP [/eqP ->|/H //]; rewrite z eqxx.
  by move=> k'; rewrite mem_rcons inE => /orP [/eqP ->|/H].
rewrite -/(nonbasic e k); case: acc Pa => [[v j] [vE H]|H] /=.
  case: (ltP v) => hv /=; split=> // k'; rewrite mem_rcons inE => /orP [/eqP -> _ //|ks nz'].
    by apply: (le_trans (H _ ks nz')); apply: ltW.
  exact: H.
by split=> // k'; rewrite mem_rcons inE => /orP [/eqP -> _ //|/H ->]; rewrite eqxx.
Qed.

Lemma swap_basic e ib jn i : basic (ech_swap e ib jn) i = if i == ib then nonbasic e jn else basic e i.
Proof.
rewrite /basic /nonbasic /= (inj_eq (@lshift_inj _ _)); case: eqP => // _.
by case: eqP => // /(congr1 val) /= H; move: (ltn_ord i); rewrite H ltnNge leq_addr.
Qed.
Lemma swap_nonbasic e ib jn j : nonbasic (ech_swap e ib jn) j = if j == jn then basic e ib else nonbasic e j.
Proof.
rewrite /basic /nonbasic /= (inj_eq (@rshift_inj _ _)).
by case: eqP => [/(congr1 val) /= H|//]; move: (ltn_ord ib); rewrite -H ltnNge leq_addr.
Qed.

Lemma pass_opt th w e (done : seq 'I_nb) i : 0 <= th -> (forall j, eS e i j = 0 \/ th < `|eS e i j|) ->
  (forall i', i' \in done -> row_opt w e i') -> i \notin done ->
  forall i', i' \in i :: done -> row_opt w (weight_pass th w e i) i'.
Proof.
move=> th0 cl D nd i' i'D; rewrite /weight_pass.
have := candidate_spec w th0 cl; case E: (candidate _ _ _ _) => [[wj j]|].
  move=> [-> mx]; case: (ltP (w (eQ e (lshift nn i)))) => hw; last first.
    move: i'D; rewrite inE => /orP [/eqP ->|/D //] k nz.
    by apply: (le_trans (mx _ nz)).
  have pj := candidate_pivot th0 E.
  move=> k; rewrite swap_basic swap_nonbasic; case: (i' =P i) => [->|/eqP ne].
    rewrite /= !mxE eqxx; case: (k =P j) => [_|/eqP nk] nz; first exact: ltW.
    by apply: mx; apply: contra nz => /eqP ->; rewrite mul0r.
  have {}i'D : i' \in done by move: i'D; rewrite inE (negPf ne).
  rewrite /= !mxE (negPf ne); case: (k =P j) => [_|/eqP nk] nz.
    apply: (le_trans (ltW hw)); apply: (D _ i'D); apply: contra nz => /eqP ->.
    by rewrite oppr0 mul0r.
  case: (eS e i' k =P 0) => [z|/eqP nz']; last exact: D.
  move: nz; rewrite z sub0r oppr_eq0 !mulf_eq0 !negb_or => /andP [nzj /andP [nzk _]].
  by apply: (le_trans (mx _ nzk)); apply: D.
by move=> Z k; move: i'D; rewrite inE => /orP [/eqP ->|/D]; [rewrite Z eqxx | apply].
Qed.

Lemma swaps_opt th w rows e (done : seq 'I_nb) : 0 <= th -> pivots_resolved th w e rows ->
  uniq (done ++ rows) -> (forall i, i \in done -> row_opt w e i) ->
  forall i, i \in done ++ rows -> row_opt w (foldl (weight_pass th w) e rows) i.
Proof.
move=> th0; elim: rows e done => [|i rows IH] e done /=; first by rewrite cats0.
move=> [cl res] U D i' i'D; apply: (IH _ (i :: done)) => //=.
- by move: U; rewrite -[i :: rows]cat1s uniq_catCA.
- move=> k kD; apply: (pass_opt (done := done)) => //.
  by move: U; rewrite uniq_catC /= mem_cat negb_or => /andP [/andP []].
by move: i'D; rewrite mem_cat !inE orbCA mem_cat.
Qed.

Lemma weights_opt th w e Kb Kn : 0 <= th -> pivots_resolved th w e (enum 'I_nb) ->
  exchange_optimal w (ech_weights th w e Kb Kn).
Proof.
move=> th0 res i j; rewrite /ech_weights /nonbasic /basic /= => nz.
rewrite !(unsplitK (inl _)) !(unsplitK (inr _)).
have := @swaps_opt th w (enum 'I_nb) e [::] th0 res (enum_uniq _) (fun i h => False_ind _ (notF h)) (Kb i).
rewrite mem_enum => /(_ isT) H; apply: H; move: nz; rewrite mxE.
done.
Qed.

Lemma weights_sorted th w e Kb Kn :
  let e1 := weight_swaps th w e in let e2 := ech_weights th w e Kb Kn in
  (sorted_by (fun i => w (basic e1 i)) Kb -> forall i j : 'I_nb, (i <= j)%N -> w (basic e2 j) <= w (basic e2 i)) /\
  (sorted_by (fun i => w (nonbasic e1 i)) Kn -> forall i j : 'I_nn, (i <= j)%N -> w (nonbasic e2 j) <= w (nonbasic e2 i)).
Proof.
rewrite /basic /nonbasic /=; split=> -[_ H] i j ij.
  by rewrite !(unsplitK (inl _)); apply: H.
by rewrite !(unsplitK (inr _)); apply: H.
Qed.

Section Basis.
Variable A : 'M[F]_(nb + md, nb + nn).

Lemma canon_free e : canon A e -> row_free (eR e *m A).
Proof.
case=> _ _ E; apply: inj_row_free => v H.
have : v *m row_mx 1%:M (eS e) = 0.
  rewrite -E mulmxA; have -> : v *m eR e *m colsub (eQ e) A = colsub (eQ e) (v *m (eR e *m A)).
    by rewrite mulmxA; apply/matrixP => i j; rewrite !mxE; apply: eq_bigr => k _; rewrite !mxE.
  by rewrite H; apply/matrixP => i j; rewrite !mxE.
by rewrite mul_mx_row mulmx1 => /eqP; rewrite row_mx_eq0 => /andP [/eqP].
Qed.

Lemma lu_rank (f : lufactors F nb md nn) : lu_contract A f -> \rank A = nb.
Proof.
move=> c; apply/eqP; rewrite eqn_leq; apply/andP; split; last first.
  have /eqP H := canon_free (compute_canon c); rewrite -[X in (X <= _)%N]H; exact: mxrankM_maxr.
case: c => PI QI _ _ E.
have [p' _ pK] := injF_bij PI; have [q' qK' qK] := injF_bij QI.
have -> : A = mxsub p' q' (mxsub (lP f) (lQ f) A) by apply/matrixP => i j; rewrite !mxE pK qK.
rewrite E mxsub_mul; apply: (leq_trans (mxrankM_maxl _ _)); exact: rank_leq_col.
Qed.

Lemma basis_max e w (g : 'I_nb -> 'I_(nb + nn)) : canon A e -> \rank A = nb -> exchange_optimal w e ->
  \rank (colsub g A) = nb -> \sum_i w (g i) <= \sum_i w (basic e i).
Proof.
move=> cn rA opt rg.
set C : 'M[F]_nb := colsub g (eR e *m A).
have : C \in unitmx.
  rewrite -row_free_unit /row_free eqn_leq rank_leq_row /=.
  have : (A <= eR e *m A)%MS.
    rewrite -(geq_leqif (mxrank_leqif_sup (submxMl _ _))) rA.
    by have := canon_free cn; rewrite /row_free => /eqP ->.
  case/submxP => D AD; rewrite -[X in (X <= _)%N]rg AD.
  have -> : colsub g (D *m (eR e *m A)) = D *m C.
    by apply/matrixP => i j; rewrite !mxE; apply: eq_bigr => k _; rewrite !mxE.
  exact: mxrankM_maxr.
rewrite unitmxE unitfE => detC.
have [s Hs] : exists s : 'S_nb, forall i, C i (s i) != 0.
  have : [exists s : 'S_nb, [forall i, C i (s i) != 0]].
    apply: contraR detC; rewrite negb_exists => /forallP H.
    rewrite /determinant big1 // => s _; have := H s; rewrite negb_forall => /existsP [i].
    by rewrite negbK => /eqP z; rewrite (bigD1 i) //= z mul0r mulr0.
  by case/existsP => s /forallP Hs; exists s.
rewrite (reindex_inj (@perm_inj _ s)) /=; apply: ler_sum => i _.
case: cn => QI _ E; have [q' _ qK] := injF_bij QI.
have := Hs i; rewrite /C mxE -(qK (g (s i))).
have -> : (eR e *m A) i (eQ e (q' (g (s i)))) = row_mx 1%:M (eS e) i (q' (g (s i))).
  by rewrite -E !mxE; apply: eq_bigr => k _; rewrite !mxE.
case: (splitP (q' (g (s i)))) => k Hk.
  have -> : q' (g (s i)) = lshift nn k by apply/val_inj.
  by rewrite row_mxEl mxE; case: (i =P k) => [<- _|_]; rewrite ?eqxx.
have -> : q' (g (s i)) = rshift nb k by apply/val_inj.
by rewrite row_mxEr; apply: opt.
Qed.
End Basis.
End Opt.
