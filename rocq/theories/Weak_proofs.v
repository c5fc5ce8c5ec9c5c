(** For C85_weak_refuted: the echelonizer on one constraint x0 + e x1 = b with a coefficient e not above
    the threshold.  Once x0 is basic it stays basic, whatever the weights. *)
From Coq Require Import List.
From mathcomp Require Import all_ssreflect all_algebra.
From Verif Require Import Index_model Echelon_model Echelon_spec Echelon_proofs EchelonOpt_proofs EchelonExt_model EchelonExt_proofs Canonical_model EchelonW_model EchelonO_model EchelonO_spec EchelonO_proofs.
Set Implicit Arguments.
Unset Strict Implicit.
Unset Printing Implicit Defensive.
Import Order.TTheory GRing.Theory Num.Theory.
Local Open Scope ring_scope.

Section Weak.
Variables (F : realFieldType) (lu : lu_impl F) (srt : sort_impl F) (th sigma e : F).
Hypothesis (LC : lu_correct lu) (SC : sort_correct srt) (e0 : 0 < e) (eth : e <= th) (th1 : th < 1).
Variable A : rawmx F.
Hypothesis (A0 : A 0%N 0%N = 1) (A1 : A 0%N 1%N = e).
Let th0 : 0 <= th. Proof. exact: le_trans (ltW e0) eth. Qed.

(** x0 is the basic variable *)
Definition first_basic nb md nn (s : echk F nb md nn) : Prop := forall i, nat_of_ord (eQ (ke s) (lshift nn i)) = 0%N.

Lemma weights_first nb md nn (w : rawvec F) (s : echk F nb md nn) : nb = 1%N -> nn = 1%N -> md = 0%N -> okk A s ->
  first_basic s \/ w 1%N < w 0%N -> first_basic (k_weights srt th (fun j => w j) s).
Proof.
move=> E1 E2 E3; subst nb nn md => -[C _ _] H i.
rewrite [ke _]/= [eQ _ _]/= split_lshift_inl (ord1 (srt _ _ _)) => {i}.
have [QI _ EE] := C.
have enum1 : enum 'I_1 = [:: 0] by rewrite enum_ordSl enum_ord0.
rewrite /weight_swaps enum1 -[foldl _ _ _]/(weight_pass _ _ _ _) /weight_pass.
have -> : candidate th (fun j : 'I_(1 + 1) => w j) (ke s) 0 = if `|eS (ke s) 0 0| <= th then None else Some (w (eQ (ke s) (rshift 1 0)), 0).
  by rewrite /candidate enum1 -[foldl _ _ _]/(if _ then _ else _).
have S1 : eR (ke s) 0 0 * A 0%N (eQ (ke s) (lshift 1 0)) = 1.
  have := congr1 (fun X : 'M_(1, 1 + 1) => X 0 (lshift 1 0)) EE.
  by rewrite row_mxEl !mxE big_ord_recl big_ord0 addr0 !mxE eqxx.
have S2 : eR (ke s) 0 0 * A 0%N (eQ (ke s) (rshift 1 0)) = eS (ke s) 0 0.
  have := congr1 (fun X : 'M_(1, 1 + 1) => X 0 (rshift 1 0)) EE.
  by rewrite row_mxEr !mxE big_ord_recl big_ord0 addr0 !mxE.
have N : nat_of_ord (eQ (ke s) (lshift 1 0)) <> eQ (ke s) (rshift 1 0).
  by move/val_inj/QI/eqP; rewrite eq_lrshift.
have V (k : 'I_(1 + 1)) : nat_of_ord k = 0%N \/ nat_of_ord k = 1%N by case: k => -[|[|k]] kl //=; [left | right].
case: (V (eQ (ke s) (lshift 1 0))) => Q0; case: (V (eQ (ke s) (rshift 1 0))) => Q1; move: S1 S2 N; rewrite Q0 Q1 ?A0 ?A1 => S1 S2 N //.
  have R1 : eR (ke s) 0 0 = 1 by rewrite -S1 mulr1.
  by rewrite -S2 R1 mul1r (ger0_norm (ltW e0)) eth.
have R1 : eR (ke s) 0 0 = e^-1 by rewrite -[RHS]mul1r -S1 mulfK // gt_eqF.
have EI : th < e^-1 by apply: lt_trans th1 _; rewrite invf_gt1 // (le_lt_trans eth).
have EP : 0 <= e^-1 by rewrite invr_ge0 ltW.
rewrite -S2 R1 mulr1 (ger0_norm EP) leNgt EI; cbn [negb].
case: H => [/(_ 0)|->]; first by rewrite Q0.
by [].
Qed.

(** with one row and two columns, no rows of J *)
Variable np : nat.
Local Notation rA := (lr (lu 1%N 2%N A)).
Lemma rank_weak : rA = 1%N.
Proof.
have := lu_rank (LC 1%N 2%N A); rewrite (rank_mxof A (subnKC (lrm (lu 1%N 2%N A))) (subnKC (lrn (lu 1%N 2%N A)))) => <-.
apply/eqP; rewrite eqn_leq rank_leq_row lt0n mxrank_eq0; apply/eqP => /matrixP /(_ 0 0).
by rewrite !mxE A0 => /eqP; rewrite oner_eq0.
Qed.
Definition good h : Prop := first_basic (oA (o_run lu srt th 1%N 2%N 0%N A h)).
Lemma good_step h J w : good h \/ w 1%N < w 0%N -> good (List.app h (List.cons (J, w) List.nil)).
Proof.
move=> H; rewrite /good /o_run List.fold_left_app /= /o_update /=.
have [OK _] := run_ok LC SC th0 1%N 2%N 0%N A h.
by apply: weights_first; rewrite ?rank_weak.
Qed.
Lemma good_view h Wx Wp w : let r := o_ech lu srt th sigma 1%N 2%N 0%N np A h Wx Wp w in
  good h \/ w 1%N < w 0%N -> good r.1 /\ qjb r.2 = List.cons 0%N List.nil.
Proof.
move=> /= H; have G := good_step (fun i j => Wx (1 + i)%N j) H.
split=> //; rewrite /o_view /= /o_view0 /=.
have R1 := rank_weak.
have E k (g : 'I_k -> nat) : k = 1%N -> (forall i, g i = 0%N) -> List.map g (enum 'I_k) = List.cons 0%N List.nil.
  by move=> Ek; subst k => H0; rewrite enum_ordSl enum_ord0 /= H0.
by apply: E => // i; exact: G.
Qed.
End Weak.
