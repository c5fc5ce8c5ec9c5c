(** Model of the step-length functions of Optima/Utils.cpp.
    A vector of size n is a function [nat -> T] read at indices below n; a
    function that changes its argument returns the new contents.  The assertions
    on sizes and on feasibility of p are not evaluated in a release build. *)
From Coq Require Import List Arith Bool ZArith.
Import ListNotations.
From Verif Require Import Num.

Section Steps.
Context {T : Type} {N : Num T}.

(** Utils.cpp:26-34  largestStep(p, dp) *)
Definition largestStep2_iter (p dp : nat -> T) (alpha : T) (i : nat) : T :=
  let res := ndiv (nopp (p i)) (dp i) in
  if ngtb res nzero && nltb res alpha then res else alpha.
Definition largestStep2 (n : nat) (p dp : nat -> T) : T :=
  fold_left (largestStep2_iter p dp) (seq 0 n) ninf.

(** Utils.cpp:36-59  largestStep(p, dp, plower, pupper) *)
Definition largestStep_iter (p dp pl pu : nat -> T) (alpha : T) (i : nat) : T :=
  if nfinite (pl i) && nltb (nadd (p i) (dp i)) (pl i) then
    nmin alpha (ndiv (nsub (pl i) (p i)) (dp i))
  else if nfinite (pu i) && ngtb (nadd (p i) (dp i)) (pu i) then
    nmin alpha (ndiv (nsub (pu i) (p i)) (dp i))
  else alpha.
Definition largestStep (n : nat) (p dp pl pu : nat -> T) : T :=
  fold_left (largestStep_iter p dp pl pu) (seq 0 n) ninf.

(** Utils.cpp:80-119, one iteration of the loop that looks for the limiting
    variable; the state is (alpha, j, lu) *)
Definition conservative_iter (p dp pl pu : nat -> T) (st : T * nat * Z) (i : nat) : T * nat * Z :=
  let '(alpha, j, lu) := st in
  if neqb (p i) (pl i) && nltb (dp i) nzero then st
  else if neqb (p i) (pu i) && ngtb (dp i) nzero then st
  else if nfinite (pl i) && nltb (nadd (p i) (dp i)) (pl i) then
    let alphai := ndiv (nsub (pl i) (p i)) (dp i) in
    if nltb alphai alpha then (nmin alphai none1, i, (-1)%Z) else st
  else if nfinite (pu i) && ngtb (nadd (p i) (dp i)) (pu i) then
    let alphai := ndiv (nsub (pu i) (p i)) (dp i) in
    if nltb alphai alpha then (nmin alphai none1, i, 1%Z) else st
  else st.
Definition conservative_scan (n : nat) (p dp pl pu : nat -> T) : T * nat * Z :=
  fold_left (conservative_iter p dp pl pu) (seq 0 n) (none1, n, 0%Z).

(** Utils.cpp:61-143  performConservativeStep: the new p and the returned alpha *)
Definition performConservativeStep (n : nat) (p dp pl pu : nat -> T) : (nat -> T) * T :=
  let '(alpha, j, lu) := conservative_scan n p dp pl pu in
  let p1 := if negb (Z.eqb lu 0) then
              fun i => if Nat.eqb i j then (if Z.eqb lu (-1) then pl j else pu j)
                       else nadd (p i) (nmul alpha (dp i))               (* 125, 129 *)
            else fun i => nadd (p i) (dp i) in                           (* 132 *)
  let p2 := fun i => nmax (p1 i) (pl i) in                               (* 137 *)
  let p3 := fun i => nmin (p2 i) (pu i) in                               (* 138 *)
  (p3, alpha).

(** Utils.cpp:145-159  performAggressiveStep *)
Definition performAggressiveStep (n : nat) (p dp pl pu : nat -> T) : nat -> T :=
  let p1 := fun i => nadd (p i) (dp i) in
  let p2 := fun i => nmax (p1 i) (pl i) in
  fun i => nmin (p2 i) (pu i).

(** Utils.cpp:161-189  stepUpToBounds *)
Definition stepUpToBounds_iter (p dp pl pu : nat -> T) (alpha : T) (i : nat) : T :=
  let res := ndiv (nopp (p i)) (dp i) in
  let pi := nadd (p i) (dp i) in
  if nfinite (pl i) && nltb (nadd (p i) (dp i)) (pl i) then
    nmin alpha (ndiv (nsub (pl i) (p i)) (dp i))
  else if nfinite (pu i) && ngtb (nadd (p i) (dp i)) (pu i) then
    nmin alpha (ndiv (nsub (pu i) (p i)) (dp i))
  else if ngtb pi (pu i) then res else alpha.
Definition stepUpToBounds (n : nat) (p dp pl pu : nat -> T) : T :=
  fold_left (stepUpToBounds_iter p dp pl pu) (seq 0 n) ninf.

(** Utils.cpp:197-215  fractionToTheBoundary(p, dp, tau, ilimiting): the returned
    alpha and ilimiting.  The version of lines 191-195 drops ilimiting. *)
Definition fraction_iter (p dp : nat -> T) (tau : T) (st : T * nat) (i : nat) : T * nat :=
  if nltb (dp i) nzero then
    let trial := ndiv (nmul (nopp tau) (p i)) (dp i) in
    if nltb trial (fst st) then (trial, i) else st
  else st.
Definition fractionToTheBoundary (n : nat) (p dp : nat -> T) (tau : T) : T * nat :=
  fold_left (fraction_iter p dp tau) (seq 0 n) (none1, n).

(** Row dot product, summed from left to right (Eigen may associate the
    additions differently; the theorems about it are in exact arithmetic). *)
Definition ndot (n : nat) (a b : nat -> T) : T :=
  fold_left (fun acc k => nadd acc (nmul (a k) (b k))) (seq 0 n) nzero.

(** Utils.cpp:217-239  fractionToTheBoundary(p, dp, C, r, tau), C with m rows *)
Definition fractionC_iter (n : nat) (p dp : nat -> T) (C : nat -> nat -> T) (r : nat -> T) (tau : T)
    (alpha : T) (i : nat) : T :=
  let tmp := ndot n (C i) dp in
  if nltb tmp nzero then
    let trial := ndiv (nmul (nopp tau) (nsub (ndot n (C i) p) (r i))) tmp in
    if nltb trial alpha then trial else alpha
  else alpha.
Definition fractionToTheBoundaryC (m n : nat) (p dp : nat -> T) (C : nat -> nat -> T) (r : nat -> T)
    (tau : T) : T :=
  if Nat.eqb m 0 then none1
  else fold_left (fractionC_iter n p dp C r tau) (seq 0 m) none1.

(** Utils.cpp:241-247  fractionToTheLowerBoundary *)
Definition fractionLower_iter (p dp lower : nat -> T) (tau : T) (alpha : T) (i : nat) : T :=
  if nltb (dp i) nzero then
    nmin alpha (ndiv (nmul (nopp tau) (nsub (p i) (lower i))) (dp i))
  else alpha.
Definition fractionToTheLowerBoundary (n : nat) (p dp lower : nat -> T) (tau : T) : T :=
  fold_left (fractionLower_iter p dp lower tau) (seq 0 n) none1.

(** Utils.cpp:249-259  lessThan, greaterThan; [eps] is the machine epsilon *)
Definition lessThan (eps lhs rhs baseval : T) : bool :=
  nltb lhs (nadd rhs (nmul (nmul (nofZ 10) eps) (nabs baseval))).
Definition greaterThan (eps lhs rhs baseval : T) : bool :=
  ngtb lhs (nsub rhs (nmul (nmul (nofZ 10) eps) (nabs baseval))).
End Steps.
