(** Numbers: the C++ code computes on [double].  The models of the vector
    algorithms are written once against the operations below and read on two
    instances:
      - [xreal]      exact reals with +inf, -inf and NaN (IEEE-754 rules for the
                     special values, no rounding, one zero);
      - [spec_float] IEEE-754 binary64 with rounding to nearest even, as
                     specified by the standard library (Floats.SpecFloat).  *)
From Coq Require Import Reals ZArith List Bool.
From Coq Require Import Floats.SpecFloat.

(** The operations of [double] used by the code. [nltb a b] is [a < b],
    [nleb a b] is [a <= b], [neqb a b] is [a == b] (all false on NaN). *)
Class Num (T : Type) := {
  nofZ : Z -> T;
  ninf : T;
  nadd : T -> T -> T;
  nsub : T -> T -> T;
  nmul : T -> T -> T;
  ndiv : T -> T -> T;
  nopp : T -> T;
  nabs : T -> T;
  nltb : T -> T -> bool;
  nleb : T -> T -> bool;
  neqb : T -> T -> bool;
  nfinite : T -> bool;  (* std::isfinite *)
  nnan : T -> bool      (* std::isnan *)
}.

Definition nzero {T} {N : Num T} : T := nofZ 0.
Definition none1 {T} {N : Num T} : T := nofZ 1.

(** [a > b] and [a >= b] *)
Definition ngtb {T} {N : Num T} (a b : T) : bool := nltb b a.
Definition ngeb {T} {N : Num T} (a b : T) : bool := nleb b a.

(** std::min(a,b) = (b < a) ? b : a and std::max(a,b) = (a < b) ? b : a
    (C++ standard, [alg.min.max]).  Eigen's cwiseMin/cwiseMax on doubles call
    the same functions coefficientwise; their vectorised versions agree with
    them when no operand is NaN. *)
Definition nmin {T} {N : Num T} (a b : T) : T := if nltb b a then b else a.
Definition nmax {T} {N : Num T} (a b : T) : T := if nltb a b then b else a.

(** ** Exact extended reals *)

Inductive xreal : Type := XF (r : R) | XPInf | XNInf | XNaN.

Definition rltb (a b : R) : bool := if Rlt_dec a b then true else false.
Definition rleb (a b : R) : bool := if Rle_dec a b then true else false.
Definition reqb (a b : R) : bool := if Req_EM_T a b then true else false.

Definition xopp (a : xreal) : xreal :=
  match a with XF r => XF (- r) | XPInf => XNInf | XNInf => XPInf | XNaN => XNaN end.

Definition xadd (a b : xreal) : xreal :=
  match a, b with
  | XNaN, _ | _, XNaN => XNaN
  | XF x, XF y => XF (x + y)
  | XPInf, XNInf | XNInf, XPInf => XNaN
  | XPInf, _ | _, XPInf => XPInf
  | XNInf, _ | _, XNInf => XNInf
  end.

Definition xsub (a b : xreal) : xreal := xadd a (xopp b).

(** inf times a finite number: the sign rule, NaN for zero *)
Definition xinf_mul (pos : bool) (y : R) : xreal :=
  if reqb y 0 then XNaN
  else if rltb 0 y then (if pos then XPInf else XNInf) else (if pos then XNInf else XPInf).

Definition xmul (a b : xreal) : xreal :=
  match a, b with
  | XNaN, _ | _, XNaN => XNaN
  | XF x, XF y => XF (x * y)
  | XF x, XPInf => xinf_mul true x
  | XF x, XNInf => xinf_mul false x
  | XPInf, XF y => xinf_mul true y
  | XNInf, XF y => xinf_mul false y
  | XPInf, XPInf | XNInf, XNInf => XPInf
  | XPInf, XNInf | XNInf, XPInf => XNInf
  end.

(** Division.  There is a single zero, so x/0 is given the sign of x; IEEE
    division by -0 has the opposite sign.  No property relies on the result of
    a division by zero. *)
Definition xdiv (a b : xreal) : xreal :=
  match a, b with
  | XNaN, _ | _, XNaN => XNaN
  | XF x, XF y =>
      if reqb y 0 then (if reqb x 0 then XNaN else if rltb 0 x then XPInf else XNInf)
      else XF (x / y)
  | XF _, _ => XF 0
  | XPInf, XF y => if rltb y 0 then XNInf else XPInf
  | XNInf, XF y => if rltb y 0 then XPInf else XNInf
  | _, _ => XNaN
  end.

Definition xabs (a : xreal) : xreal :=
  match a with XF r => XF (Rabs r) | XPInf | XNInf => XPInf | XNaN => XNaN end.

Definition xltb (a b : xreal) : bool :=
  match a, b with
  | XNaN, _ | _, XNaN => false
  | XF x, XF y => rltb x y
  | XNInf, XNInf => false
  | XNInf, _ => true
  | _, XNInf => false
  | XPInf, _ => false
  | _, XPInf => true
  end.

Definition xleb (a b : xreal) : bool :=
  match a, b with
  | XNaN, _ | _, XNaN => false
  | XF x, XF y => rleb x y
  | XNInf, _ => true
  | _, XNInf => false
  | _, XPInf => true
  | XPInf, _ => false
  end.

Definition xeqb (a b : xreal) : bool :=
  match a, b with
  | XF x, XF y => reqb x y
  | XPInf, XPInf => true
  | XNInf, XNInf => true
  | _, _ => false
  end.

#[export] Instance Num_xreal : Num xreal := {|
  nofZ := fun z => XF (IZR z);
  ninf := XPInf;
  nadd := xadd; nsub := xsub; nmul := xmul; ndiv := xdiv; nopp := xopp; nabs := xabs;
  nltb := xltb; nleb := xleb; neqb := xeqb;
  nfinite := fun a => match a with XF _ => true | _ => false end;
  nnan := fun a => match a with XNaN => true | _ => false end
|}.

(** ** Plain reals: used where no infinity or NaN can occur *)
#[export] Instance Num_R : Num R := {|
  nofZ := IZR;
  ninf := 0%R;  (* never reached: only models without infinities are read on R *)
  nadd := Rplus; nsub := Rminus; nmul := Rmult; ndiv := Rdiv; nopp := Ropp; nabs := Rabs;
  nltb := rltb; nleb := rleb; neqb := reqb;
  nfinite := fun _ => true;
  nnan := fun _ => false
|}.

(** ** IEEE-754 binary64 *)

Definition prec64 : Z := 53.
Definition emax64 : Z := 1024.

#[export] Instance Num_b64 : Num spec_float := {|
  nofZ := fun z => binary_normalize prec64 emax64 z 0 false;
  ninf := S754_infinity false;
  nadd := SFadd prec64 emax64; nsub := SFsub prec64 emax64;
  nmul := SFmul prec64 emax64; ndiv := SFdiv prec64 emax64;
  nopp := SFopp; nabs := SFabs;
  nltb := SFltb; nleb := SFleb; neqb := SFeqb;
  nfinite := fun a => match a with S754_zero _ | S754_finite _ _ _ => true | _ => false end;
  nnan := fun a => match a with S754_nan => true | _ => false end
|}.
