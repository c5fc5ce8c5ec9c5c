(** When [well_pivoted] holds: always for threshold 0, and for a single constraint whose
    coefficients are 0, 1 and -1. *)
From Coq Require Import List Reals Lra Lia.
From mathcomp Require Import all_ssreflect all_algebra.
From Verif Require Import Num Index_model Num_rf R_rf Canonical_model Echelon_model EchelonO_model EchelonO_spec EchelonO_proofs Wrapper_model End_model Pivot_spec.
Set Implicit Arguments.
Unset Strict Implicit.
Unset Printing Implicit Defensive.
Import Order.TTheory GRing.Theory Num.Theory.
Local Open Scope ring_scope.

Lemma resolved_by_empty (F : realFieldType) (th : F) n (W : rawmx F) : resolved_by th 0 n W.
Proof.
move=> jb V L _ _ i j il; exfalso; have := rank_leq_row (mxof 0 n W).
by rewrite -L leqNgt (leq_ltn_trans _ il).
Qed.
Lemma resolved_by_row (F : realFieldType) (th : F) n (W : rawmx F) : th < 1 ->
  (forall j, (j < n)%N -> W 0%N j = 0 \/ `|W 0%N j| = 1) -> resolved_by th 1 n W.
Proof.
move=> th1 H jb V L RG I i j il jl.
have i0 : i = 0%N.
  by have := leq_trans il (eq_leq L) => /leq_trans /(_ (rank_leq_row _)); rewrite ltnS leqn0 => /eqP.
subst i; rewrite /= big_ord_recl big_ord0 addr0.
have := I 0%N 0%N il il; rewrite eqxx big_ord_recl big_ord0 addr0 => E.
have V1 : `|V 0%N 0%N| = 1.
  have [Z|N] := H _ (RG 0%N il); first by move: E; rewrite /= Z mulr0 => /esym/eqP; rewrite oner_eq0.
  by have := congr1 (fun t => `|t|) E; rewrite normrM normr1 [X in _ * X]N mulr1.
by have [->|N] := H j jl; [left; rewrite mulr0 | right; rewrite normrM V1 N mulr1].
Qed.

Lemma well_pivoted_0 M X p : well_pivoted R0 M X p.
Proof. by split; exact: resolved_by_0. Qed.
Lemma code_threshold_range : Rlt 0 code_threshold /\ Rlt code_threshold 1.
Proof. by rewrite /code_threshold; lra. Qed.
Lemma well_pivoted_row th M X p : Rlt th 1 -> (ms_ny M + ms_nz M)%coq_nat = 1%N ->
  (forall j, (j < ms_nx M)%coq_nat -> m_Wx M X p 0%N j = R0 \/ Rabs (m_Wx M X p 0%N j) = R1) -> well_pivoted th M X p.
Proof.
move=> /R_ltP th1 E H.
have H' j : (j < ms_nx M)%N -> m_Wx M X p 0%N j = 0 :> RF \/ `|m_Wx M X p 0%N j : RF| = 1 by move=> jl; exact (H j (elimT ssrnat.ltP jl)).
have RW : @resolved_by RF th (ms_ny M + ms_nz M) (ms_nx M) (m_Wx M X p) by have -> : (ms_ny M + ms_nz M)%N = 1%N by []; exact: (resolved_by_row th1 H').
split=> //; case Ey: (ms_ny M) => [|[|k]]; first exact: resolved_by_empty.
  by apply: resolved_by_row => // j jl; have := H' j jl; rewrite /m_Wx Ey.
by exfalso; move: E; rewrite Ey; lia.
Qed.
