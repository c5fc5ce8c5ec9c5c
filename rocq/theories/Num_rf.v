(** The operations of Num.v on a real field (exact arithmetic without infinities), so that
    models written against Num can be combined with the matrix models. *)
From Coq Require Import ZArith.
From mathcomp Require Import all_ssreflect all_algebra.
From Verif Require Import Num Index_spec.
Set Implicit Arguments.
Unset Strict Implicit.
Unset Printing Implicit Defensive.
Import Order.TTheory GRing.Theory Num.Theory.
Local Open Scope ring_scope.

Definition rf_ofZ (F : realFieldType) (z : Z) : F :=
  match z with Z0 => 0 | Zpos p => (Pos.to_nat p)%:R | Zneg p => - (Pos.to_nat p)%:R end.
Definition Num_rf (F : realFieldType) : Num F := {|
  Verif.Num.nofZ := @rf_ofZ F;
  ninf := 0;  (* never reached: only models without infinities are read on a real field *)
  nadd := fun a b => a + b; nsub := fun a b => a - b; nmul := fun a b => a * b; ndiv := fun a b => a / b;
  nopp := fun a => - a; nabs := fun a => `|a|;
  nltb := fun a b => a < b; nleb := fun a b => a <= b; neqb := fun a b => a == b;
  nfinite := fun _ => true; nnan := fun _ => false |}.
Lemma rf_asym (F : realFieldType) : @NumAsym F (Num_rf F).
Proof. by move=> a b /= ab; rewrite ltNge (ltW ab). Qed.
Lemma rf_max (F : realFieldType) (a b : F) : @nmax F (Num_rf F) a b = Num.max a b.
Proof. by []. Qed.
