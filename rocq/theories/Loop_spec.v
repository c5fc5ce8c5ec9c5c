(** Specification vocabulary for C47-C55 and C69. *)
From Coq Require Import List Arith Bool Reals.
From Verif Require Import Num Loop_model.
Import ListNotations.

Section Spec.
Context {T : Type} {N : Num T}.

(** entry i of v is within the bounds, or NaN *)
Definition within (lower v upper : list T) : Prop :=
  forall i, i < length v -> nnan (nth i v nzero) = true \/
    (nleb (nth i lower nzero) (nth i v nzero) = true /\ nleb (nth i v nzero) (nth i upper nzero) = true).
Definition inbox (B : bounds T) (u : uvec T) : Prop := within (xlo B) (ux u) (xhi B) /\ within (plo B) (up u) (phi_ B).

Definition sized (nx np nw : nat) (u : uvec T) : Prop := length (ux u) = nx /\ length (up u) = np /\ length (uw u) = nw.

(** bounds for nx variables x and np variables p, lower <= upper (in particular no NaN) *)
Definition good_bounds (nx np : nat) (B : bounds T) : Prop :=
  length (xlo B) = nx /\ length (plo B) = np /\
  Forall2 (fun l h => nleb l h = true) (xlo B) (xhi B) /\ Forall2 (fun l h => nleb l h = true) (plo B) (phi_ B).
End Spec.

(** For C51: variable with old value o, new value v and bounds lo, hi *)
Definition lin (b o v : R) : R := ((1 - b) * o + b * v)%R.
Definition inside (lo hi : xreal) (a : R) : Prop := xleb lo (XF a) = true /\ xleb (XF a) hi = true.
(** it sits on the bound that the step would violate *)
Definition blocked (lo hi : xreal) (o v : R) : Prop :=
  (hi = XF o /\ (o < v)%R) \/ (lo = XF o /\ (v < o)%R).
Definition vars (o v : list R) (lo hi : list xreal) : list ((R * R) * (xreal * xreal)) := combine (combine o v) (combine lo hi).

Definition fin (x p w : list R) : uvec xreal := UVec (map XF x) (map XF p) (map XF w).
Definition all_inside (lo hi : list xreal) (a : list R) : Prop :=
  forall i, i < length a -> inside (nth i lo XNaN) (nth i hi XNaN) (nth i a 0%R).
(** r results from moving from o towards v by the fraction b: variables on a bound that v
    violates stay, the others move and stay inside their bounds. *)
Definition moved (b : R) (o v : list R) (lo hi r : list xreal) : Prop :=
  length r = length o /\ forall i, i < length o ->
    let l := nth i lo XNaN in let h := nth i hi XNaN in let oi := nth i o 0%R in let vi := nth i v 0%R in
    (blocked l h oi vi -> nth i r XNaN = XF oi) /\
    (~ blocked l h oi vi -> nth i r XNaN = XF (lin b oi vi) /\ inside l h (lin b oi vi)).
(** some variable that is not blocked leaves its bounds when moved by the fraction b *)
Definition overshoots (b : R) (o v : list R) (lo hi : list xreal) : Prop :=
  exists i, i < length o /\ ~ blocked (nth i lo XNaN) (nth i hi XNaN) (nth i o 0%R) (nth i v 0%R) /\
    ~ inside (nth i lo XNaN) (nth i hi XNaN) (lin b (nth i o 0%R) (nth i v 0%R)).
