(** Proofs for C84: the index sets and the stability measures in the returned state. *)
From Coq Require Import List PeanoNat Permutation Reals Lra Lia.
From mathcomp Require Import all_ssreflect all_algebra.
From Verif Require Import Num Num_facts Index_model Index_spec Index_proofs Num_rf R_rf Canonical_model Canonical_spec.
From Verif Require Import ResErr_model Residual_model Residual_spec Residual_proofs P_Residual Sens_proofs.
From Verif Require Import Loop_model Loop_spec P_Loop Wrapper_model Wrapper_spec Wrapper_proofs P_Wrapper Near_proofs End_model End_spec End_proofs P_End Status_spec.
Set Implicit Arguments.
Unset Strict Implicit.
Unset Printing Implicit Defensive.
Import Order.TTheory GRing.Theory Num.Theory.
Local Open Scope ring_scope.
Local Notation "l ++ l'" := (List.app l l') : seq_scope.

Section Field.
Variables (F : realFieldType) (part : partition_impl) (nx np ny nz : nat).
Variables (d : pdata F) (e : evals F) (Wx Wp : rawmx F) (q : rwq F) (u : mvec F) (r : residual F).
Hypothesis HC : partition_contract part.
Hypothesis HE : echelon_of nx np (ny + nz) e Wx Wp q.
Hypothesis HR : rf_update part nx np ny nz d e Wx Wp q u = Some r.
Let t := rst r.

Lemma status_s : length (st_s t) = nx /\ forall i, (i < nx)%N -> List.nth i (st_s t) 0 = lagrangian ny nz e Wx u i.
Proof.
have -> : st_s t = @stab_s F (Num_rf F) (mlist (ny + nz) nx Wx) (vlist nx (eg e)) (vlist (ny + nz) (mw u)).
  rewrite /t (rst_eq HR) /rf_stability /stability_update.
  by case: moveIntersectionLeft => ? ?; do 3![case: moveRightIf => ? ?].
split; first by rewrite /stab_s List.map_length seq_length length_vlist.
by move=> i il; exact: stab_s_rf.
Qed.

Lemma status_lu : status_ju t = status_jlu t ++ status_juu t /\ (qjb q = nil -> status_ju t = nil) /\
  (qjb q <> nil -> forall i,
    (In i (status_jlu t) <-> (i < nx)%N /\ ~ In i (qjb q) /\ mx u i = dxl d i /\ 0 < lagrangian ny nz e Wx u i) /\
    (In i (status_juu t) <-> (i < nx)%N /\ ~ In i (qjb q) /\ mx u i = dxu d i /\ lagrangian ny nz e Wx u i < 0)).
Proof.
rewrite /t (rst_eq HR); have [ND RG] := jb_nodup HE.
have [E0|E0] : qjb q = [::] \/ qjb q <> [::] by case: (qjb q); [left | right].
  have EU : status_ju (rf_stability part nx ny nz d e Wx (qjb q) u) = nil by rewrite /rf_stability E0; exact: stability_empty_ju.
  by rewrite /status_jlu /status_juu EU firstn_nil /vtail skipn_nil.
have RG' j : In j (qjb q) -> (j < length (vlist nx (mx u)))%coq_nat by move/RG/ssrnat.ltP; rewrite length_vlist.
have [_ [_ [EU [_ [HL [HU _]]]]]] := @stability_update_correct F (Num_rf F) (@rf_asym F) part HC (mlist (ny + nz) nx Wx) (vlist nx (eg e)) (vlist nx (mx u)) (vlist (ny + nz) (mw u)) (vlist nx (dxl d)) (vlist nx (dxu d)) (qjb q) E0 ND RG'.
split; first exact: EU.
split=> // _ i; rewrite /rf_stability HL HU length_vlist; split; split.
- by move=> [/ssrnat.ltP il [H1 []]]; rewrite nths // !nthv // => /eqP H2 H3.
- by move=> [il [H1 [/eqP H2 H3]]]; split; [exact/ssrnat.ltP | split=> //; split; [rewrite !nthv | rewrite nths]].
- by move=> [/ssrnat.ltP il [H1 []]]; rewrite nths // !nthv // => /eqP H2 H3.
- by move=> [il [H1 [/eqP H2 H3]]]; split; [exact/ssrnat.ltP | split=> //; split; [rewrite !nthv | rewrite nths]].
Qed.
End Field.
