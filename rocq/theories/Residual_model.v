(** Model of Optima/ResidualVector.cpp, of the part of Optima/ResidualFunction.cpp after the
    evaluation of f, h, v, and of their use by ResidualErrors, in exact arithmetic. *)
From Coq Require Import List.
From mathcomp Require Import all_ssreflect all_algebra.
From Verif Require Import Num Index_model MatUtil_model Num_rf LU_model Linear_model Canonical_model ResErr_model.
Set Implicit Arguments.
Unset Strict Implicit.
Unset Printing Implicit Defensive.
Local Open Scope ring_scope.
Import Order.TTheory GRing.Theory Num.Theory.

Section Residual.
Variables (F : realFieldType) (part : partition_impl) (nx np ny nz : nat).
Let nw := (ny + nz)%N.
Let NF : Num F := Num_rf F.
Local Existing Instance NF.

(** The problem data: b, xlower, xupper (ResidualFunction.cpp:107-109) *)
Record pdata := PData { db : rawvec F; dxl : rawvec F; dxu : rawvec F }.
(** What the evaluations of f, h, v at u leave in fres, hres, vres (ResidualFunction.cpp:143-160) *)
Record evals := Evals { eg : rawvec F; eHxx : rawmx F; eHxp : rawmx F; eh : rawvec F; ev : rawvec F; eVpx : rawmx F; eVpp : rawmx F }.

(** ResidualFunction.cpp:186-187: priority weights for the choice of basic variables *)
Definition rf_weight (d : pdata) (x : rawvec F) (i : nat) : F :=
  if (x i != dxl d i) && (x i != dxu d i) then `|x i| else -1.

(** the vectors and matrices handed to Stability::update, as lists *)
Definition vlist (n : nat) (v : rawvec F) : list F := List.map v (List.seq 0 n).
Definition mlist (m n : nat) (A : rawmx F) : list (list F) := List.map (fun l => vlist n (A l)) (List.seq 0 m).

(** ResidualFunction.cpp:192-200 *)
Definition rf_stability (d : pdata) (e : evals) (Wx : rawmx F) (jb : list nat) (u : mvec F) : stability :=
  stability_update part (mlist nw nx Wx) (vlist nx (eg e)) (vlist nx (mx u)) (vlist nw (mw u)) (vlist nx (dxl d)) (vlist nx (dxu d)) jb.

(** ResidualFunction.cpp:223-233: the Jacobian matrix in master form *)
Definition rf_master (e : evals) (Wx Wp : rawmx F) (ju : list nat) : mmat F :=
  MMat (eHxx e) (eHxp e) (eVpx e) (eVpp e) Wx Wp ju.

(** ResidualVector.cpp:106-108  ax(js) = -(gs + tr(As)*y + tr(Js)*z); ax(ju) = 0.  Every
    variable is in js or ju. *)
Definition rv_ax (e : evals) (M : mmat F) (c : canon F) (u : mvec F) (i : nat) : F :=
  if contains i (kju c) then 0
  else - (eg e i + \sum_(l < ny) mWx M l i * mw u l + \sum_(l < nz) mWx M (ny + l)%N i * mw u (ny + l)%N).
(** ResidualVector.cpp:113-114 *)
Definition rv_aw (d : pdata) (e : evals) (M : mmat F) (u : mvec F) (l : nat) : F :=
  if (l < ny)%N then - (\sum_(j < nx) mWx M l j * mx u j + \sum_(k < np) mWp M l k * mp u k - db d l)
  else - eh e (l - ny)%N.
(** ResidualVector.cpp:116 *)
Definition rv_ap (e : evals) (k : nat) : F := - ev e k.
(** ResidualVector.cpp:118-120 *)
Definition rv_awstar (d : pdata) (e : evals) (M : mmat F) (c : canon F) (u : mvec F) (l : nat) : F :=
  if (l < ny)%N then db d l - \sum_(j <- kju c) mWx M l j * mx u j
  else \sum_(j <- kjs c) mWx M l j * mx u j + \sum_(k < np) mWp M l k * mp u k - eh e (l - ny)%N.
(** ResidualVector.cpp:122-123: awbs = Rbs*awstar (without residual round-off errors) minus
    xbs + Sbsns*xns + Sbsp*p *)
Definition rv_awbs (d : pdata) (e : evals) (M : mmat F) (c : canon F) (u : mvec F) (i : nat) : F :=
  let nbs := (knbe c + knbi c)%N in let nns := (knne c + knni c)%N in
  multiplyClean nbs nw (kR c) (rv_awstar d e M c u) i
  - (mx u (ix (kjs c) i) + \sum_(j < nns) kSbn c i j * mx u (ix (kjs c) (nbs + j)%N) + \sum_(k < np) kSbp c i k * mp u k).

(** ResidualFunction.cpp:113-121 update, after the evaluations and the echelonization, and
    ResidualErrors.cpp:60-107.  [q] is the view of EchelonizerW.  [None]: Canonicalizer throws.
    [rax], [rap], [rawbs] are ax, ap, awbs of ResidualVector. *)
Record residual := Residual { rst : stability (T := F); rM : mmat F; rc : canon F; rerror : F;
                              rax : rawvec F; rap : rawvec F; rawbs : rawvec F }.
Definition rf_update (d : pdata) (e : evals) (Wx Wp : rawmx F) (q : rwq F) (u : mvec F) : option residual :=
  let st := rf_stability d e Wx (qjb q) u in                                             (* 117 *)
  let M := rf_master e Wx Wp (status_ju st) in
  match canonicalize part nx np M q with                                                 (* 118 *)
  | None => None
  | Some c =>
      let nbs := (knbe c + knbi c)%N in
      Some (Residual st M c
        (err_update nx np nw nbs (rv_ax e M c u) (rv_ap e) (rv_awbs d e M c u)           (* 119 *)
           (mx u) (dxl d) (dxu d) (kju c) (firstn nbs (kjs c)))
        (rv_ax e M c u) (rv_ap e) (rv_awbs d e M c u))
  end.
End Residual.
