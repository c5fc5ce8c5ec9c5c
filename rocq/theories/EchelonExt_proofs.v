From mathcomp Require Import all_ssreflect all_fingroup all_algebra.
From Verif Require Import Echelon_model Echelon_spec Echelon_proofs EchelonExt_model EchelonExt_spec.
Set Implicit Arguments.
Unset Strict Implicit.
Unset Printing Implicit Defensive.
Import Order.TTheory GRing.Theory Num.Theory.
Local Open Scope ring_scope.

Section ExtProofs.
Variables (F : realFieldType) (nbA mdA nbJ mdJ nnJ : nat).
Variables (A : 'M[F]_(nbA + mdA, nbA + (nbJ + nnJ))) (J : 'M[F]_(nbJ + mdJ, nbA + (nbJ + nnJ))).
Local Notation echA := (ech F nbA mdA (nbJ + nnJ)).
Local Notation echJ := (ech F nbJ mdJ nnJ).
Local Notation xech := (xech F nbA mdA nbJ mdJ nnJ).

Definition xcanon (x : xech) : Prop :=
  [/\ injective (xQ x), row_free (xech_R x) & xR x *m colsub (xQ x) (col_mx A J) = row_mx 1%:M (xS x)].
Lemma xcanonE (x : xech) : xcanon x -> xcanonical A J x.
Proof.
case=> QI RF E; split=> //.
  by move: RF; rewrite /row_free /row_full => /eqP ->; apply/eqP; rewrite addnACA.
by rewrite /xech_R mul_col_mx col_mxKu.
Qed.

Lemma lr_neq p q (i : 'I_p) (j : 'I_q) : lshift q i = rshift p j -> False.
Proof. by move/(congr1 val) => /= H; move: (ltn_ord i); rewrite H ltnNge leq_addr. Qed.

Lemma ext_Q_inj (eA : echA) (eJ : echJ) : injective (eQ eA) -> injective (eQ eJ) -> injective (ext_Q eA eJ).
Proof.
move=> IA IJ p q; rewrite /ext_Q.
case: (splitP p) => [b|j] pb; case: (splitP q) => [c|k] qc; rewrite ?pb ?qc.
- case: (splitP b) => [i|k] bi; case: (splitP c) => [i'|k'] ci.
  + by move/IA/lshift_inj => H; apply/val_inj; rewrite /= pb qc bi ci H.
  + by move/IA/lr_neq.
  + by move/IA/esym/lr_neq.
  + by move/IA/rshift_inj/IJ/lshift_inj => H; apply/val_inj; rewrite /= pb qc bi ci H.
- case: (splitP b) => [i|k'] bi.
  + by move/IA/lr_neq.
  + by move/IA/rshift_inj/IJ/lr_neq.
- case: (splitP c) => [i|k'] ci.
  + by move/IA/esym/lr_neq.
  + by move/IA/rshift_inj/IJ/esym/lr_neq.
- by move/IA/rshift_inj/IJ/rshift_inj => H; apply/val_inj; rewrite /= pb qc H.
Qed.

(** columns in the order of ext_Q *)
Lemma ext_cols k (eA : echA) (eJ : echJ) (X : 'M[F]_(k, nbA + (nbJ + nnJ))) :
  colsub (ext_Q eA eJ) X =
  row_mx (row_mx (lsubmx (colsub (eQ eA) X)) (lsubmx (colsub (eQ eJ) (rsubmx (colsub (eQ eA) X)))))
         (rsubmx (colsub (eQ eJ) (rsubmx (colsub (eQ eA) X)))).
Proof.
apply/matrixP => i p; rewrite [LHS]mxE /ext_Q.
case: (splitP p) => [b|j] pb.
  have -> : p = lshift nnJ b by apply/val_inj.
  rewrite row_mxEl; case: (splitP b) => [c|l] bc.
    have -> : b = lshift nbJ c by apply/val_inj.
    by rewrite row_mxEl !mxE.
  have -> : b = rshift nbA l by apply/val_inj.
  by rewrite row_mxEr !mxE.
have -> : p = rshift (nbA + nbJ) j by apply/val_inj.
by rewrite row_mxEr !mxE.
Qed.

Lemma mulmx_colsub p q r r' (X : 'M[F]_(p, q)) (g : 'I_r' -> 'I_r) (Y : 'M[F]_(q, r)) :
  X *m colsub g Y = colsub g (X *m Y).
Proof. by apply/matrixP => i j; rewrite !mxE; apply: eq_bigr => k _; rewrite !mxE. Qed.
Lemma mulmx_lsub p q r s (X : 'M[F]_(p, q)) (Y : 'M[F]_(q, r + s)) : X *m lsubmx Y = lsubmx (X *m Y).
Proof. by rewrite -{2}(hsubmxK Y) mul_mx_row row_mxKl. Qed.
Lemma mulmx_rsub p q r s (X : 'M[F]_(p, q)) (Y : 'M[F]_(q, r + s)) : X *m rsubmx Y = rsubmx (X *m Y).
Proof. by rewrite -{2}(hsubmxK Y) mul_mx_row row_mxKr. Qed.

Lemma assemble_free (eA : echA) (eJ : echJ) : ech_R eA \in unitmx -> ech_R eJ \in unitmx ->
  row_free (xech_R (ext_assemble eA eJ J)).
Proof.
move=> UA UJ; apply: inj_row_free => v; rewrite -(hsubmxK v).
rewrite -(hsubmxK (lsubmx v)) -(hsubmxK (rsubmx v)).
move: (lsubmx (lsubmx v)) (rsubmx (lsubmx v)) (lsubmx (rsubmx v)) (rsubmx (rsubmx v)) => x1 x2 x3 x4.
rewrite /xech_R /= mul_row_col !mul_row_block mulmx0 add0r add_row_mx => /eqP.
rewrite row_mx_eq0 => /andP [/eqP H1 /eqP H2].
set SA1 := lsubmx (colsub (eQ eJ) (eS eA)) in H1 H2.
have /(unit_inj UJ) /eqP : row_mx (x2 - x1 *m SA1) x4 *m ech_R eJ = 0.
  by rewrite /ech_R mul_row_col mulmxBl -[RHS]H2 mulmxN mulmxA [_ - _]addrC.
rewrite row_mx_eq0 subr_eq0 => /andP [/eqP E2 /eqP E4].
move: H1; rewrite E4 E2 mul0mx addr0 mulmxDr mulmxN !mulmxA => H1.
have /(unit_inj UA) /eqP : row_mx x1 x3 *m ech_R eA = 0.
  by rewrite /ech_R mul_row_col -[RHS]H1 addrK.
rewrite row_mx_eq0 => /andP [/eqP E1 /eqP E3].
by rewrite E1 E3 mul0mx !row_mx0.
Qed.

Lemma assemble_canon (eA : echA) (eJ : echJ) : canon A eA -> canon (J2of eA J) eJ -> xcanon (ext_assemble eA eJ J).
Proof.
move=> [IA UA EA] [IJ UJ EJ]; split.
- exact: ext_Q_inj.
- exact: assemble_free.
rewrite /= -/(ext_Q eA eJ).
have -> : colsub (ext_Q eA eJ) (col_mx A J) = col_mx (colsub (ext_Q eA eJ) A) (colsub (ext_Q eA eJ) J).
  by apply/matrixP => i j; rewrite mxE; case: (splitP i) => k ik;
     [have -> : i = lshift _ k by apply/val_inj | have -> : i = rshift _ k by apply/val_inj];
     rewrite ?col_mxEu ?col_mxEd mxE.
set SA1 := lsubmx (colsub (eQ eJ) (eS eA)); set SA2 := rsubmx (colsub (eQ eJ) (eS eA)).
set J1 := J1of eA J; set BA := colsub (ext_Q eA eJ) A; set BJ := colsub (ext_Q eA eJ) J.
have HA : eR eA *m BA = row_mx (row_mx 1%:M SA1) SA2.
  rewrite /BA ext_cols !mul_mx_row !(mulmx_lsub, mulmx_rsub, mulmx_colsub) -mulmx_colsub.
  by rewrite EA row_mxKl row_mxKr.
have HJ : eR eJ *m (BJ - J1 *m (eR eA *m BA)) = row_mx (row_mx 0 1%:M) (eS eJ).
  rewrite HA /BJ ext_cols !mul_mx_row mulmx1.
  rewrite -/J1 opp_row_mx opp_row_mx !add_row_mx subrr.
  have E2 : colsub (eQ eJ) (rsubmx (colsub (eQ eA) J)) - J1 *m colsub (eQ eJ) (eS eA) = colsub (eQ eJ) (J2of eA J).
    by rewrite mulmx_colsub /J2of; apply/matrixP => i j; rewrite !mxE.
  have -> : lsubmx (colsub (eQ eJ) (rsubmx (colsub (eQ eA) J))) - J1 *m SA1 = lsubmx (colsub (eQ eJ) (J2of eA J)).
    by rewrite -E2 mulmx_lsub; apply/matrixP => i j; rewrite !mxE.
  have -> : rsubmx (colsub (eQ eJ) (rsubmx (colsub (eQ eA) J))) - J1 *m SA2 = rsubmx (colsub (eQ eJ) (J2of eA J)).
    by rewrite -E2 mulmx_rsub; apply/matrixP => i j; rewrite !mxE.
  by rewrite !mul_mx_row mulmx0 mulmx_lsub mulmx_rsub EJ row_mxKl row_mxKr.
rewrite mul_block_col.
have -> : - (eR eJ *m J1 *m eR eA) *m BA + eR eJ *m BJ = row_mx (row_mx 0 1%:M) (eS eJ).
  by rewrite -HJ mulmxBr mulNmx addrC !mulmxA.
have -> : (eR eA + SA1 *m eR eJ *m J1 *m eR eA) *m BA + - (SA1 *m eR eJ) *m BJ =
          row_mx (row_mx 1%:M 0) (SA2 - SA1 *m eS eJ).
  transitivity (eR eA *m BA - SA1 *m (eR eJ *m (BJ - J1 *m (eR eA *m BA)))).
    rewrite mulmxDl mulNmx !mulmxBr opprB addrA !mulmxA -addrA; congr (_ + _).
  rewrite HJ HA !mul_mx_row mulmx0 mulmx1 !opp_row_mx !add_row_mx.
  by rewrite oppr0 addr0 subrr.
by rewrite -block_mxEv block_mxEh -block_mxEv -scalar_mx_block.
Qed.

Lemma ext_order_canon (x : xech) Kb Kn : injective Kb -> injective Kn -> xcanon x -> xcanon (ext_order x Kb Kn).
Proof.
move=> bI nI [QI RF E].
pose K (p : 'I_((nbA + nbJ) + nnJ)) := match split p with inl i => lshift nnJ (Kb i) | inr j => rshift (nbA + nbJ) (Kn j) end.
have KI : injective K.
  move=> p q; rewrite /K; case: (splitP p) => i pi; case: (splitP q) => j qj.
  - by move/lshift_inj/bI => H; apply/val_inj; rewrite /= pi qj H.
  - by move/lr_neq.
  - by move/esym/lr_neq.
  - by move/rshift_inj/nI => H; apply/val_inj; rewrite /= pi qj H.
have QE p : xQ (ext_order x Kb Kn) p = xQ x (K p) by rewrite /= /K; case: (split p).
split.
- by move=> p q; rewrite !QE => /QI /KI.
- have -> : xech_R (ext_order x Kb Kn) = block_mx (perm_mx (perm bI)) 0 0 1%:M *m xech_R x.
    rewrite /xech_R mul_block_col !mul0mx mul1mx addr0 add0r; congr col_mx.
    by rewrite -row_permE; apply/matrixP => i j; rewrite !mxE permE.
  rewrite /row_free mxrankMfree //; apply/eqP; apply: mxrank_unit.
  by rewrite unitmxE det_ublock det1 mulr1 -unitmxE unitmx_perm.
have -> : xR (ext_order x Kb Kn) *m colsub (xQ (ext_order x Kb Kn)) (col_mx A J) =
          mxsub Kb K (xR x *m colsub (xQ x) (col_mx A J)).
  by apply/matrixP => i p; rewrite !mxE; apply: eq_bigr => k _; rewrite !mxE QE.
rewrite E; apply/matrixP => i p; rewrite [LHS]mxE /K; case: (splitP p) => j pj.
  have -> : p = lshift nnJ j by apply/val_inj.
  by rewrite !row_mxEl !mxE (inj_eq bI).
have -> : p = rshift (nbA + nbJ) j by apply/val_inj.
by rewrite !row_mxEr !mxE.
Qed.

Lemma ext_clean_canon sigma (x : xech) : xcanon x -> xcanon (ext_clean sigma x).
Proof.
have K p q (X : 'M[F]_(p, q)) : clean_mx sigma X = X by apply/matrixP => i j; rewrite mxE addrK.
by case: x => R Rb S Q; rewrite /xcanon /ext_clean /xech_R /= !K.
Qed.
End ExtProofs.

Lemma split_lshift_inl m n (i : 'I_m) : split (lshift n i) = inl i.
Proof. by rewrite -[lshift n i]/(unsplit (inl i)) unsplitK. Qed.
Lemma split_rshift_inr m n (i : 'I_n) : split (rshift m i) = inr i.
Proof. by rewrite -[rshift m i]/(unsplit (inr i)) unsplitK. Qed.

Section ExtOptimal.
Variables (F : realFieldType) (nbA mdA nbJ mdJ nnJ : nat).
Lemma assemble_opt (eA : ech F nbA mdA (nbJ + nnJ)) (eJ : ech F nbJ mdJ nnJ) (J : 'M[F]_(nbJ + mdJ, nbA + (nbJ + nnJ))) w :
  exchange_optimal w eA -> exchange_optimal (wJof eA w) eJ -> xexchange_optimal w (ext_assemble eA eJ J).
Proof.
move=> oA oJ i j /=; rewrite /ext_Q split_rshift_inr split_lshift_inl.
case: (splitP i) => k ik; last first.
  have -> : i = rshift nbA k by apply/val_inj.
  by rewrite col_mxEd => /oJ.
have -> : i = lshift nbJ k by apply/val_inj.
rewrite col_mxEu !mxE; have [z|nz _] := eqVneq (eS eA k (eQ eJ (rshift nbJ j))) 0; last exact: oA nz.
rewrite z add0r oppr_eq0 => /eqP ne.
have [l] : exists l, (lsubmx (colsub (eQ eJ) (eS eA))) k l * eS eJ l j != 0.
  apply/existsP; apply: contraT; rewrite negb_exists => /forallP H; case: ne; apply: big1 => l _.
  by apply/eqP; have := H l; rewrite negbK.
rewrite mulf_eq0 negb_or !mxE => /andP [/oA H1 /oJ H2]; exact: le_trans H2 H1.
Qed.
Lemma ext_order_opt (x : xech F nbA mdA nbJ mdJ nnJ) Kb Kn w : xexchange_optimal w x -> xexchange_optimal w (ext_order x Kb Kn).
Proof. by move=> o i j; rewrite /= split_rshift_inr split_lshift_inl mxE => /o. Qed.
End ExtOptimal.
