(** Specification vocabulary for C93: binary64 numbers and the real numbers they stand for. *)
From Coq Require Import Reals ZArith List Bool.
From Coq Require Import Floats.SpecFloat.
From Flocq Require Import Core BinarySingleNaN.
From Verif Require Import Num Loop_model.
Import ListNotations.

(** the real value of a binary64 number, 0 for the infinities and NaN *)
Definition V (x : spec_float) : R := SF2R radix2 x.

(** a bit pattern that a double can hold: 53 significant bits, exponents of binary64 *)
Definition valid (x : spec_float) : Prop := valid_binary prec64 emax64 x = true.
(** it is neither infinite nor NaN *)
Definition isfin (x : spec_float) : Prop := valid_binary prec64 emax64 x = true /\ is_finite_SF x = true.
(** and at most 2^e in magnitude *)
Definition upto (e : Z) (x : spec_float) : Prop := isfin x /\ (Rabs (V x) <= bpow radix2 e)%R.

(** the same number as an extended real *)
Definition xof (x : spec_float) : xreal :=
  match x with
  | S754_zero _ | S754_finite _ _ _ => XF (V x)
  | S754_infinity s => if s then XNInf else XPInf
  | S754_nan => XNaN
  end.
Definition xvec (u : uvec spec_float) : uvec xreal := UVec (map xof (ux u)) (map xof (up u)) (map xof (uw u)).
Definition xbounds (B : bounds spec_float) : bounds xreal :=
  Bounds (map xof (xlo B)) (map xof (xhi B)) (map xof (plo B)) (map xof (phi_ B)).

(** every entry of x, p and w satisfies P *)
Definition all_of (P : spec_float -> Prop) (u : uvec spec_float) : Prop :=
  Forall P (ux u) /\ Forall P (up u) /\ Forall P (uw u).
Definition valid_bounds (B : bounds spec_float) : Prop :=
  Forall valid (xlo B) /\ Forall valid (xhi B) /\ Forall valid (plo B) /\ Forall valid (phi_ B).

(** Each entry of the computed [r] is a number; it differs from that of the exact [e] by a
    few units in the last place of the old value o and the target v. *)
Definition rounded (o v r : list spec_float) (e : list xreal) : Prop :=
  length r = length o /\ length e = length o /\
  forall i, i < length o -> exists c, isfin (nth i r S754_nan) /\ nth i e XNaN = XF c /\
    (Rabs (V (nth i r S754_nan) - c) <=
       bpow radix2 (-50) * (Rabs (V (nth i o S754_nan)) + Rabs (V (nth i v S754_nan))) + bpow radix2 (-1073))%R.

(** ** A problem with x = (x1, x2): minimise half the sum of (x1 - t1)^2 and (x2 - t2)^2 with
    x1 >= 0, t1 < 0.  The world of the solver is the current point; the Newton direction leads
    from any point to (t1, t2); the residual error is |x2 - t2|, plus |x1 - t1| unless x1 is on
    its bound, where it is held by the bound. *)
Section Quadratic2.
Context {T : Type} {N : Num T}.
Variables t1 t2 : T.
Definition q_update (_ u : uvec T) : uvec T := u.
Definition q_newton (w : uvec T) : uvec T * uvec T := (w, UVec (map2 nsub [t1; t2] (ux w)) [] []).
Definition q_error (_ u : uvec T) : T :=
  match ux u with
  | [x1; x2] => if neqb x1 nzero then nabs (nsub x2 t2) else nadd (nabs (nsub x1 t1)) (nabs (nsub x2 t2))
  | _ => nzero
  end.
Definition q_bounds : bounds T := Bounds [nzero; nopp ninf] [ninf; ninf] [] [].
Definition q_solve (fuel : nat) (o : options T) (x1 x2 : T) : option (result T * state T (uvec T)) :=
  solve (uvec T) q_update q_error q_newton None None fuel q_bounds o (UVec [] [] []) [] (UVec [x1; x2] [] []).
End Quadratic2.
