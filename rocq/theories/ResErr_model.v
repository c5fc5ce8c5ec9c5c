(** Model of Optima/ResidualErrors.cpp on the arithmetic of Num.v. *)
From Coq Require Import List Arith Bool.
From Verif Require Import Num Index_model MatUtil_model.

Section ResidualErrors.
Context {T : Type} {N : Num T}.

(** eigenx/Eigen/Functions:201 norminf = lpNorm<Infinity>: 0 for an empty vector, otherwise
    the largest magnitude *)
Definition norminf (n : nat) (v : nat -> T) : T := if Nat.eqb n 0 then nzero else maxAbs1 n v.

(** ResidualErrors.cpp:82, 92, 100-101.  [Fx] is Fm.x, [jbs] = js.head(nbs). *)
Definition err_ex (Fx x xlower xupper : nat -> T) (ju jbs : list nat) (i : nat) : T :=
  let e := nabs (Fx i) in
  let e := if contains i ju then nzero else e in
  let e := if contains i jbs && neqb (x i) (xlower i) then nzero else e in
  if contains i jbs && neqb (x i) (xupper i) then nzero else e.

(** ResidualErrors.cpp:83 *)
Definition err_ep (Fp : nat -> T) (k : nat) : T := nabs (Fp k).

(** ResidualErrors.cpp:86-90: the head has nbs entries, the tail (nl = nw - nbs entries) is
    filled with zeros *)
Definition err_ewbar (nbs : nat) (wbs : nat -> T) (i : nat) : T :=
  if Nat.ltb i nbs then nabs (wbs i) else nzero.

(** ResidualErrors.cpp:106: std::max of an initializer list is std::max_element, which keeps
    the first of the largest and replaces it when [largest < next] *)
Definition err_max (errorx errorp errorw : T) : T := nmax (nmax errorx errorp) errorw.

(** ResidualErrors.cpp:60-107 *)
Definition err_update (nx np nw nbs : nat) (Fx Fp wbs x xlower xupper : nat -> T) (ju jbs : list nat) : T :=
  err_max (norminf nx (err_ex Fx x xlower xupper ju jbs))
          (norminf np (err_ep Fp))
          (norminf nw (err_ewbar nbs wbs)).
End ResidualErrors.
