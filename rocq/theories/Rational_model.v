(** Model of farey, rational and rationalize (Optima/Utils.cpp:481-531).
    The integers are of type long (64 bit) and are modelled by Z; [farey_checked]
    is the same loop that stops when an addition overflows, and is proved equal. *)
From Coq Require Import List Arith Bool ZArith.
Import ListNotations.
From Verif Require Import Num.
Local Open Scope Z_scope.

Section Rational.
Context {T : Type} {N : Num T}.

(** Utils.cpp:491  double(a+c)/(b+d); both integers convert exactly to double *)
Definition mediant (a b c d : Z) : T := ndiv (nofZ (a + c)) (nofZ (b + d)).

(** Utils.cpp:489-507, the loop; [None]: still running when the fuel is spent *)
Fixpoint farey_loop (fuel : nat) (x : T) (n a b c d : Z) : option (Z * Z) :=
  if (b <=? n) && (d <=? n) then
    match fuel with
    | 0%nat => None
    | S fuel' =>
        if neqb x (mediant a b c d) then
          if b + d <=? n then Some (a + c, b + d)
          else if d >? b then Some (c, d)
          else Some (a, b)
        else if ngtb x (mediant a b c d) then farey_loop fuel' x n (a + c) (b + d) c d
        else farey_loop fuel' x n a b (a + c) (b + d)
    end
  else if b >? n then Some (c, d) else Some (a, b).

(** Utils.cpp:485-508 *)
Definition farey (fuel : nat) (x : T) (n : Z) : option (Z * Z) := farey_loop fuel x n 0 1 1 1.

(** The loop of Utils.cpp:489-507 once more, where the additions a+c and b+d
    (signed 64-bit, undefined on overflow) are checked: [Some None] is an overflow *)
Definition fits_long (z : Z) : bool := (- 2 ^ 63 <=? z) && (z <? 2 ^ 63).
Fixpoint farey_checked_loop (fuel : nat) (x : T) (n a b c d : Z) : option (option (Z * Z)) :=
  if (b <=? n) && (d <=? n) then
    match fuel with
    | 0%nat => None
    | S fuel' =>
        if fits_long (a + c) && fits_long (b + d) then
          if neqb x (mediant a b c d) then
            if b + d <=? n then Some (Some (a + c, b + d))
            else if d >? b then Some (Some (c, d))
            else Some (Some (a, b))
          else if ngtb x (mediant a b c d) then farey_checked_loop fuel' x n (a + c) (b + d) c d
          else farey_checked_loop fuel' x n a b (a + c) (b + d)
        else Some None
    end
  else if b >? n then Some (Some (c, d)) else Some (Some (a, b)).
Definition farey_checked (fuel : nat) (x : T) (n : Z) := farey_checked_loop fuel x n 0 1 1 1.

(** Utils.cpp:510-521; n is an unsigned *)
Definition rational (fuel : nat) (x : T) (n : Z) : option (Z * Z) :=
  let sign := if ngeb x nzero then 1 else -1 in
  if ngtb (nabs x) none1 then
    match farey fuel (ndiv none1 (nabs x)) n with
    | Some (a, b) => Some (sign * b, a)
    | None => None
    end
  else
    match farey fuel (nabs x) n with
    | Some (a, b) => Some (sign * a, b)
    | None => None
    end.

(** Utils.cpp:523-531: every entry is replaced by numerator/denominator *)
Definition rationalize_entry (fuel : nat) (x : T) (maxden : Z) : option T :=
  match rational fuel x maxden with
  | Some (a, b) => Some (ndiv (nofZ a) (nofZ b))
  | None => None
  end.
Fixpoint rationalize (fuel : nat) (data : list T) (maxden : Z) : option (list T) :=
  match data with
  | [] => Some []
  | x :: rest =>
      match rationalize_entry fuel x maxden, rationalize fuel rest maxden with
      | Some y, Some r => Some (y :: r)
      | _, _ => None
      end
  end.
End Rational.
