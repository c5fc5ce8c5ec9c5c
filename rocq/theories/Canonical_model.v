(** Model of Optima/Canonicalizer.cpp and Optima/LinearSolver.cpp in exact arithmetic
    over a real field.  Matrices and vectors of the master problem are functions of
    natural-number indices; index vectors are lists. *)
From Coq Require Import List PeanoNat.
From mathcomp Require Import all_ssreflect all_fingroup all_algebra.
From Verif Require Import Index_model LU_model Linear_model.
Import ListNotations.
Set Implicit Arguments.
Unset Strict Implicit.
Unset Printing Implicit Defensive.
Local Open Scope ring_scope.
Import Order.TTheory GRing.Theory Num.Theory.
Local Open Scope list_scope.
Local Notation "l ++ l'" := (List.app l l') : seq_scope.

(** entry k of an index vector *)
Definition ix (l : list nat) (k : nat) : nat := List.nth k l 0%N.

Section Canonicalizer.
Variable F : realFieldType.
Definition rawmx := nat -> nat -> F.
Definition rawvec := nat -> F.

(** MatrixViewRWQ.hpp:27-34: R, Sbn, Sbp, jb, jn *)
Record rwq := RWQ { qR : rawmx; qSbn : rawmx; qSbp : rawmx; qjb : list nat; qjn : list nat }.

(** MasterMatrix.hpp:30-51: the blocks H, V, W and ju (dims nx, np, nw are arguments) *)
Record mmat := MMat { mHxx : rawmx; mHxp : rawmx; mVpx : rawmx; mVpp : rawmx; mWx : rawmx; mWp : rawmx; mju : list nat }.

(** norminf of column j of a matrix with m rows (eigenx/Eigen/Functions:201; lpNorm of an
    empty vector is 0) *)
Definition colnorm (m : nat) (A : rawmx) (j : nat) : F :=
  fold_left (fun acc i => Num.max acc `|A i j|) (seq.iota 0 m) 0.

(** The fields of Canonicalizer::Impl after update *)
Record canon := Canon {
  kR : rawmx; kSbn : rawmx; kSbp : rawmx; kjb : list nat; kjn : list nat;
  knns : nat; knnu : nat; knbe : nat; knbi : nat; knne : nat; knni : nat;
  kjs : list nat; kju : list nat }.

(** Canonicalizer.cpp:150-157 *)
Definition basic_explicit (np : nat) (M : mmat) (q : rwq) (k : nat) : bool :=
  let idx := ix (qjb q) k in
  Num.max 1 (colnorm np (mVpx M) idx) <= `|mHxx M idx idx|.
(** Canonicalizer.cpp:160-167 *)
Definition nonbasic_explicit (np nb : nat) (M : mmat) (q : rwq) (k : nat) : bool :=
  let idx := ix (qjn q) k in
  Num.max (colnorm nb (qSbn q) k) (colnorm np (mVpx M) idx) <= `|mHxx M idx idx|.

(** Canonicalizer.cpp:71-261 update.  [None]: the exception of lines 142-143.
    js, ju are jsu.head(ns), jsu.tail(nu) with ns = nx - ju0.size() (lines 88, 222-223). *)
Definition canonicalize (part : partition_impl) (nx np : nat) (M : mmat) (q : rwq) : option canon :=
  let nb := length (qjb q) in let nn := length (qjn q) in                              (* 91-92 *)
  let stable j := negb (contains j (mju M)) in                                         (* 123-124 *)
  let '(Kb1, nbs) := moveLeftIf part (indices nb) (fun i => stable (ix (qjb q) i)) in (* 131, 135 *)
  let '(Kn1, nns) := moveLeftIf part (indices nn) (fun i => stable (ix (qjn q) i)) in (* 132, 136 *)
  if (0 <? nb - nbs)%nat then None else                                                (* 142 *)
  let '(Kbs, nbe) := moveLeftIf part (firstn nbs Kb1) (basic_explicit np M q) in       (* 146, 169 *)
  let '(Kns, nne) := moveLeftIf part (firstn nns Kn1) (nonbasic_explicit np nb M q) in (* 147, 170 *)
  let Kb := Kbs ++ skipn nbs Kb1 in
  let Kn := Kns ++ skipn nns Kn1 in
  let ns := (nx - length (mju M))%nat in
  let jb := map (fun k => ix (qjb q) k) Kb in                                     (* 186 *)
  let jn := map (fun k => ix (qjn q) k) Kn in                                     (* 187 *)
  let jsu := firstn nbs jb ++ firstn nns jn ++ skipn nns jn in                         (* 209-219 *)
  Some (Canon (fun i j => qR q (ix Kb i) j)                                       (* 184 *)
              (fun i j => qSbn q (ix Kb i) (ix Kn j))                        (* 179, 182 *)
              (fun i j => qSbp q (ix Kb i) j)                                     (* 180 *)
              jb jn nns (nn - nns) nbe (nbs - nbe) nne (nns - nne)                     (* 138-139, 173-174 *)
              (firstn ns jsu) (skipn ns jsu)).                                         (* 222-223 *)

(** Canonicalizer.cpp:230-247, 263-281: the canonical matrix given to the linear solvers,
    with Hss = Hxx(js,js), Hsp = Hxp(js,all), Vps = Vpx(all,js), Sbsns, Sbsp *)
Definition canon_cmat (np : nat) (M : mmat) (c : canon) : cmat F (knbe c + knbi c) (knne c + knni c) np :=
  CMat (\matrix_(i, j) mHxx M (ix (kjs c) i) (ix (kjs c) j))
       (\matrix_(i, j) mHxp M (ix (kjs c) i) j)
       (\matrix_(i, j) mVpx M i (ix (kjs c) j))
       (\matrix_(i, j) mVpp M i j)
       (\matrix_(i, j) kSbn c i j)
       (\matrix_(i, j) kSbp c i j).
End Canonicalizer.

Section LinearSolver.
Variable F : realFieldType.

(** MasterVector.hpp:26-60 *)
Record mvec := MVec { mx : rawvec F; mp : rawvec F; mw : rawvec F }.

(** LinearSolver.cpp:68-94: as = a.x(js), ap = a.p, awbs = Rbs*a.w *)
Definition canon_rhs (np nw : nat) (c : canon F) (a : mvec) : cvec F (knbe c + knbi c) (knne c + knni c) np :=
  CVec (\col_i mx a (ix (kjs c) i)) (\col_i mp a i)
       (\col_i \sum_(l < nw) kR c i l * mw a l).

(** the position of i in the list l, if any *)
Fixpoint posn (i : nat) (l : list nat) : option nat :=
  match l with
  | nil => None
  | j :: l' => if Nat.eqb i j then Some 0%N else option_map S (posn i l')
  end.
Definition rawcol n (v : 'cV[F]_n) (i : nat) : F := if insub i is Some k then v k 0 else 0.

(** LinearSolver.cpp:96-129: w = tr(Rbs)*wbs; u.x(js) = xs; u.x(ju) = au; u.p = p; u.w = w.
    [u0] holds the entries of u.x that no index of js or ju addresses. *)
Definition master_result (np : nat) (c : canon F) (a : mvec) (u0 : rawvec F)
    (u : cvec F (knbe c + knbi c) (knne c + knni c) np) : mvec :=
  MVec (fun i => match posn i (kju c) with
                 | Some k => mx a (ix (kju c) k)                                  (* 126 *)
                 | None => match posn i (kjs c) with
                           | Some k => rawcol (vxs u) k                                (* 125 *)
                           | None => u0 i
                           end
                 end)
       (rawcol (vp u))                                                                 (* 127 *)
       (fun l => \sum_(i < knbe c + knbi c) kR c i l * vw u i 0).                      (* 123, 128 *)

(** LinearSolver.cpp:48-94 solve with the method chosen in the options; [f] are the LU
    factors computed by decompose (58-66) *)
Inductive method (c : canon F) (np : nat) :=
  | MFullspace of lufac F ((knbe c + knbi c) + ((knne c + knni c) + (np + (knbe c + knbi c))))
  | MNullspace of lufac F (knbe c + ((knne c + knni c) + (np + knbe c)))
  | MRangespace of lufac F (np + (knbi c + (knbe c + knni c))).
Definition ls_solve (eps : F) (np nw : nat) (M : mmat F) (c : canon F) (m : method c np) (a : mvec) (u0 : rawvec F) : option mvec :=
  let J := canon_cmat np M c in let ac := canon_rhs np nw c a in
  omap (master_result a u0)
    match m with
    | MFullspace f => fullspace eps f ac
    | MNullspace f => nullspace eps f J ac
    | MRangespace f => rangespace eps f J ac
    end.
End LinearSolver.
