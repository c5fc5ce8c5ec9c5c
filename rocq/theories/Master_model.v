(** Model of Optima/MasterMatrix.cpp, Optima/MasterMatrixOps.cpp and the conversions of
    Optima/MasterVector.hpp, in exact arithmetic.  Blocks and vectors are functions of
    natural-number indices, as in Canonical_model.v. *)
From mathcomp Require Import all_ssreflect all_algebra.
From Verif Require Import Canonical_model.
Set Implicit Arguments.
Unset Strict Implicit.
Unset Printing Implicit Defensive.
Local Open Scope ring_scope.

Section Master.
Variables (F : realFieldType) (nx np nw : nat).

(** MasterVector.hpp:136  operator Vector(): res << x, p, w *)
Definition mvec_data (u : mvec F) : rawvec F := fun i =>
  if (i < nx)%N then mx u i else if (i < nx + np)%N then mp u (i - nx)%N else mw u (i - (nx + np))%N.
(** MasterVector.hpp:53-54: x = data.head(nx), p = data.segment(nx, np), w = data.tail(nw),
    where data has [n] entries *)
Definition mvec_of_data (n : nat) (data : rawvec F) : mvec F :=
  MVec (fun i => data i) (fun i => data (nx + i)%N) (fun i => data ((n - nw) + i)%N).

(** MasterMatrix.cpp:22-46 operator Matrix(): M starts as zeros; the assignments are made in
    this order (Hxx(js,js) before Hxx(ju,ju)).  js and ju address existing variables. *)
Definition dense_Hxx (M : mmat F) (js ju : seq nat) : rawmx F := fun i j =>
  if (i \in ju) && (j \in ju) then (seq.index i ju == seq.index j ju)%:R                (* 38: identity(nu, nu) *)
  else if (i \in js) && (j \in js) then mHxx M i j                                      (* 37 *)
  else 0.
Definition mm_dense (M : mmat F) (js ju : seq nat) : rawmx F := fun i j =>
  if (i < nx)%N then
    if (j < nx)%N then dense_Hxx M js ju i j
    else if (j < nx + np)%N then (if i \in js then mHxp M i (j - nx)%N else 0)            (* 39 *)
    else (if i \in js then mWx M (j - (nx + np))%N i else 0)                              (* 40: tr(Ws) *)
  else if (i < nx + np)%N then
    if (j < nx)%N then (if j \in js then mVpx M (i - nx)%N j else 0)                      (* 41 *)
    else if (j < nx + np)%N then mVpp M (i - nx)%N (j - nx)%N                               (* 42 *)
    else 0
  else
    if (j < nx)%N then (if j \in js then mWx M (i - (nx + np))%N j else 0)                (* 43 *)
    else if (j < nx + np)%N then mWp M (i - (nx + np))%N (j - nx)%N                         (* 44 *)
    else 0.

(** MasterMatrixOps.cpp:23-46  M*u: a starts as a copy of u; x(js), then x(ju) are assigned *)
Definition mm_mul (M : mmat F) (js ju : seq nat) (u : mvec F) : mvec F :=
  MVec (fun i => if i \in ju then mx u i                                                (* 43 *)
                 else if i \in js then                                                  (* 42 *)
                   \sum_(j <- js) mHxx M i j * mx u j + \sum_(k < np) mHxp M i k * mp u k
                   + \sum_(l < nw) mWx M l i * mw u l
                 else mx u i)
       (fun k => \sum_(j <- js) mVpx M k j * mx u j + \sum_(k' < np) mVpp M k k' * mp u k')  (* 44 *)
       (fun l => \sum_(j <- js) mWx M l j * mx u j + \sum_(k < np) mWp M l k * mp u k).      (* 45 *)

(** MasterMatrixOps.cpp:50-73  tr(M)*u *)
Definition mm_mul_tr (M : mmat F) (js ju : seq nat) (u : mvec F) : mvec F :=
  MVec (fun i => if i \in ju then mx u i                                                (* 70 *)
                 else if i \in js then                                                  (* 69 *)
                   \sum_(j <- js) mHxx M j i * mx u j + \sum_(k < np) mVpx M k i * mp u k
                   + \sum_(l < nw) mWx M l i * mw u l
                 else mx u i)
       (fun k => \sum_(j <- js) mHxp M j k * mx u j + \sum_(k' < np) mVpp M k' k * mp u k'   (* 71 *)
                 + \sum_(l < nw) mWp M l k * mw u l)
       (fun l => \sum_(j <- js) mWx M l j * mx u j).                                         (* 72 *)
End Master.
