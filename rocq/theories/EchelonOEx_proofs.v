(** A LU factorization and a sort that are correct for all inputs exist: the contracts of
    EchelonO_spec.v exclude nothing. *)
From mathcomp Require Import all_ssreflect all_fingroup all_algebra.
From Verif Require Import Echelon_model Echelon_spec Canonical_model EchelonW_model EchelonO_model EchelonO_spec.
Set Implicit Arguments.
Unset Strict Implicit.
Unset Printing Implicit Defensive.
Import Order.TTheory GRing.Theory Num.Theory.
Local Open Scope ring_scope.

(** an injection can be completed to a permutation *)
Lemma inj_extend r md (f : 'I_r -> 'I_(r + md)) : injective f ->
  exists P : {ffun 'I_(r + md) -> 'I_(r + md)}, injective P /\ forall i, P (lshift md i) = f i.
Proof.
move=> fI.
pose C := [seq x <- enum 'I_(r + md) | x \notin codom f].
have sC : size C = md.
  have P1 : perm_eq (codom f ++ C) (enum 'I_(r + md)).
    apply: uniq_perm; first last.
    - by move=> x; rewrite mem_cat mem_filter !mem_enum andbT orbN.
    - exact: enum_uniq.
    - rewrite cat_uniq filter_uniq ?enum_uniq // andbT; apply/andP; split; first by apply/injectiveP.
      by apply/hasPn => x; rewrite mem_filter => /andP [].
  have := perm_size P1; rewrite size_cat size_codom card_ord size_enum_ord => /eqP.
  by rewrite eqn_add2l => /eqP.
have Cu : uniq C by rewrite filter_uniq // enum_uniq.
exists [ffun p => match split p with inl i => f i | inr j => nth p C j end]; split; last first.
  by move=> i; rewrite ffunE -[lshift md i]/(unsplit (inl i)) unsplitK.
move=> p q; rewrite !ffunE.
case: (splitP p) => i pi; case: (splitP q) => j qj.
- by move/fI => ij; apply: val_inj; rewrite /= pi qj ij.
- move=> H; have : nth q C j \in C by rewrite mem_nth // sC.
  by rewrite -H mem_filter codom_f.
- move=> H; have : nth p C i \in C by rewrite mem_nth // sC.
  by rewrite H mem_filter codom_f.
- rewrite (set_nth_default p q) ?sC // => /eqP; rewrite nth_uniq ?sC // => /eqP ij.
  by apply: val_inj; rewrite /= pi qj ij.
Qed.

Lemma full_rows (F : realFieldType) r md (C : 'M[F]_(r + md, r)) : row_full C ->
  exists P : {ffun 'I_(r + md) -> 'I_(r + md)}, injective P /\ usubmx (rowsub P C) \in unitmx.
Proof.
move=> rk; have [P [PI PE]] := inj_extend (@fullrankfun_inj _ _ _ _ rk); exists P; split=> //.
have -> : usubmx (rowsub P C) = rowsub (fullrankfun rk) C by apply/matrixP => i j; rewrite !mxE PE.
exact: fullrowsub_unit.
Qed.

Section Exists.
Variables (F : realFieldType) (nb md nn : nat).
Definition luT := ({ffun 'I_(nb + md) -> 'I_(nb + md)} * {ffun 'I_(nb + nn) -> 'I_(nb + nn)} * 'M[F]_nb * 'M[F]_(md, nb) * 'M[F]_nb * 'M[F]_(nb, nn))%type.
Definition mklu (t : luT) : lufactors F nb md nn := let: (P, Q, L, L', U, U') := t in LU P Q L L' U U'.
Definition lu_ok (A : 'M[F]_(nb + md, nb + nn)) (t : luT) : bool :=
  let: (P, Q, L, L', U, U') := t in
  [&& injectiveb P, injectiveb Q, L \in unitmx, U \in unitmx & mxsub P Q A == col_mx L L' *m row_mx U U'].
Lemma lu_okP A t : lu_ok A t -> lu_contract A (mklu t).
Proof. by case: t => [[[[[P Q] L] L'] U] U'] /and5P [/injectiveP PI /injectiveP QI UL UU /eqP E]. Qed.
Lemma lu_factors (A : 'M[F]_(nb + md, nb + nn)) : \rank A = nb -> exists t, lu_ok A t.
Proof.
move=> rk.
have [C [D [E [fC fD]]]] : exists C (D : 'M[F]_(nb, nb + nn)), A = C *m D /\ row_full C /\ row_free D.
  have := mulmx_base A; have := col_base_full A; have := row_base_free A.
  by move: (col_base A) (row_base A); rewrite rk => C D fD fC E; exists C, D.
have [P [PI UP]] := full_rows fC.
have fD' : row_full D^T by rewrite /row_full mxrank_tr.
have [Q [QI UQ]] := full_rows fD'.
exists (P, Q, usubmx (rowsub P C), dsubmx (rowsub P C), lsubmx (colsub Q D), rsubmx (colsub Q D)).
apply/and5P; split=> //; try exact/injectiveP.
  rewrite -unitmx_tr; suff <- : usubmx (rowsub Q D^T) = (lsubmx (colsub Q D))^T by [].
  by apply/matrixP => i j; rewrite !mxE.
apply/eqP; rewrite vsubmxK hsubmxK E.
by apply/matrixP => i j; rewrite !mxE; apply: eq_bigr => k _; rewrite !mxE.
Qed.
End Exists.

Theorem lu_correct_exists (F : realFieldType) : exists lu : lu_impl F, lu_correct lu.
Proof.
have rk m n (W : rawmx F) : let r := \rank (mxof m n W) in \rank (mxof (r + (m - r)) (r + (n - r)) W) = r.
  by rewrite /= !subnKC // ?rank_leq_row ?rank_leq_col.
by exists (fun m n W => LURes (rank_leq_row (mxof m n W)) (rank_leq_col (mxof m n W)) (mklu (xchoose (lu_factors (rk m n W))))) => m n W;
   apply: lu_okP; apply: xchooseP.
Qed.
Print Assumptions lu_correct_exists.

Theorem sort_correct_exists (F : realFieldType) : exists srt : sort_impl F, sort_correct srt.
Proof.
pose sq k (v : 'I_k -> F) := sort (fun a b => v b <= v a) (enum 'I_k).
have sz k v : size (sq k v) = k by rewrite size_sort size_enum_ord.
exists (fun k v _ i => nth i (sq k v) i) => k v K _; split.
- move=> i j; rewrite (set_nth_default i j) ?sz // => /eqP; rewrite nth_uniq ?sz ?sort_uniq ?enum_uniq // => /eqP.
  exact: val_inj.
- move=> i j ij; rewrite (set_nth_default i j) ?sz //.
  have tr : transitive (fun a b => v b <= v a) by move=> y x z H1 H2; apply: le_trans H2 H1.
  have so : sorted (fun a b => v b <= v a) (sq k v) by apply: sort_sorted => a b; rewrite orbC; exact: le_total.
  case: (ltngtP i j) ij => // [ij _|/val_inj <- _]; last exact: lexx.
  by apply: (sorted_ltn_nth tr i so); rewrite ?inE ?sz.
Qed.
Print Assumptions sort_correct_exists.
