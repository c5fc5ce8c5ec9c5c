(** What is assumed of the LU factorization and of std::sort. *)
From mathcomp Require Import all_ssreflect all_algebra.
From Verif Require Import Echelon_model Echelon_spec Canonical_model EchelonO_model.
Set Implicit Arguments.
Unset Strict Implicit.
Unset Printing Implicit Defensive.
Local Open Scope ring_scope.

Section Contracts.
Variable F : realFieldType.
(** The factors are those of the matrix (see [lu_contract] in Echelon_spec.v). *)
Definition lu_correct (lu : lu_impl F) : Prop :=
  forall m n (W : rawmx F), lu_contract (mxof _ _ W) (lf (lu m n W)).
(** Positions that are all there are sorted in descending order. *)
Definition sort_correct (srt : sort_impl F) : Prop :=
  forall k (v : 'I_k -> F) (K : 'I_k -> 'I_k), injective K -> sorted_by v (srt k v K).
(** the variables of the list come in descending order of weight *)
Definition descending (w : rawvec F) (l : list nat) : Prop :=
  forall i j, (i <= j)%N -> (j < length l)%N -> w (List.nth j l 0%N) <= w (List.nth i l 0%N).
(** Solved for any of its largest sets of independent variables [jb] (V inverts their columns), the
    equations with the m x n matrix W have no coefficient that is nonzero and at most th: no
    dependence is so weak that the echelonizer takes it for none. *)
Definition resolved_by (th : F) m n (W : rawmx F) : Prop :=
  forall (jb : list nat) (V : rawmx F), length jb = \rank (mxof m n W) ->
    (forall k, (k < length jb)%N -> (List.nth k jb 0 < n)%N) ->
    (forall i k, (i < length jb)%N -> (k < length jb)%N -> \sum_(l < m) V i l * W l (List.nth k jb 0%N) = (i == k)%:R) ->
    forall i j, (i < length jb)%N -> (j < n)%N -> let c := \sum_(l < m) V i l * W l j in c = 0 \/ th < `|c|.
End Contracts.
