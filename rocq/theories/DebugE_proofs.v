(** Proofs for the pivots in C99. *)
From mathcomp Require Import all_ssreflect all_algebra.
From Verif Require Import Echelon_model DebugE_model.
Set Implicit Arguments.
Unset Strict Implicit.
Unset Printing Implicit Defensive.
Import Order.TTheory GRing.Theory Num.Theory.
Local Open Scope ring_scope.

Section Debug.
Variables (F : realFieldType) (nb md nn : nat).
Implicit Types (th : F) (w : 'I_(nb + nn) -> F) (e : ech F nb md nn).

Lemma candidate_pivot th w e i wj j : candidate th w e i = Some (wj, j) -> th < `|eS e i j|.
Proof.
  rewrite /candidate.
  set f := (fun acc k => _).
  suff G : forall l acc, (forall m k, acc = Some (m, k) -> th < `|eS e i k|) ->
      forall m k, foldl f acc l = Some (m, k) -> th < `|eS e i k|.
    by apply: (G _ None).
  elim=> [|k l IH] acc HA; first exact: HA.
  cbn [foldl]. apply: IH. rewrite /f.
  case: ifPn => [_|]; first exact: HA. rewrite -ltNge => P.
  case: acc HA => [[m0 k0]|] HA m k'.
    by case: ifPn => _ [_ <-] //; apply: HA.
  by case=> _ <-.
Qed.

Lemma swaps_d th w e : foldl (weight_pass_d th w) (Some e) (enum 'I_nb) = Some (weight_swaps th w e).
Proof.
  rewrite /weight_swaps. elim: (enum 'I_nb) e => [//|i l IH] e. cbn [foldl]. rewrite -IH. congr (foldl _ _ l).
  rewrite /weight_pass_d /weight_pass. case C: (candidate th w e i) => [[wj j]|//].
  case: ifPn => // _. by rewrite /ech_swap_d (candidate_pivot C).
Qed.
End Debug.
