(** The assertion of Echelonizer::updateWithSwapBasicVariable in a debug build: Echelonizer.cpp:193,
    |S(ib, in)| > threshold.  (183 and 188, the ranges of the indices, hold by the types of
    Echelon_model.v.)  [None]: the assertion fails. *)
From mathcomp Require Import all_ssreflect all_algebra.
From Verif Require Import Echelon_model.
Set Implicit Arguments.
Unset Strict Implicit.
Unset Printing Implicit Defensive.
Import Order.TTheory GRing.Theory Num.Theory.
Local Open Scope ring_scope.

Section Debug.
Variables (F : realFieldType) (nb md nn : nat).

(** Echelonizer.cpp:176-218 *)
Definition ech_swap_d (th : F) (e : ech F nb md nn) (ib : 'I_nb) (jn : 'I_nn) : option (ech F nb md nn) :=
  if th < `|eS e ib jn| then Some (ech_swap e ib jn) else None.

(** Echelonizer.cpp:256-263 *)
Definition weight_pass_d (th : F) (w : 'I_(nb + nn) -> F) (e : option (ech F nb md nn)) (i : 'I_nb) : option (ech F nb md nn) :=
  match e with
  | None => None
  | Some e =>
      match candidate th w e i with
      | Some (wj, j) => if w (eQ e (lshift nn i)) < wj then ech_swap_d th e i j else Some e
      | None => Some e
      end
  end.

(** Echelonizer.cpp:221-287 *)
Definition ech_weights_d (th : F) (w : 'I_(nb + nn) -> F) (e : ech F nb md nn) (Kb : 'I_nb -> 'I_nb) (Kn : 'I_nn -> 'I_nn) : option (ech F nb md nn) :=
  match foldl (weight_pass_d th w) (Some e) (enum 'I_nb) with
  | None => None
  | Some e' => Some (ech_order e' Kb Kn)
  end.
End Debug.
