(** Model of Optima/EchelonizerW.cpp on top of EchelonExt_model.v.  The view it returns is
    in the index-based form used by Canonical_model.v. *)
From Coq Require Import List.
From mathcomp Require Import all_ssreflect all_fingroup all_algebra.
From Verif Require Import Echelon_model EchelonExt_model Canonical_model.
Set Implicit Arguments.
Unset Strict Implicit.
Unset Printing Implicit Defensive.
Local Open Scope ring_scope.

Section EchelonizerW.
Variables (F : realFieldType) (nbA mdA nbJ mdJ nnJ np : nat).
Let m := ((nbA + mdA) + (nbJ + mdJ))%N.

(** a matrix as a function of natural-number indices *)
Definition rawm p q (A : 'M[F]_(p, q)) : rawmx F :=
  fun i j => match insub i, insub j with Some i', Some j' => A i' j' | _, _ => 0 end.

(** EchelonizerW.cpp:42-67, 85-89: W = [Ax Ap; Jx Jp] *)
Definition ew_Wx (A : 'M[F]_(nbA + mdA, nbA + (nbJ + nnJ))) (J : 'M[F]_(nbJ + mdJ, nbA + (nbJ + nnJ))) : 'M[F]_(m, nbA + (nbJ + nnJ)) := col_mx A J.
Definition ew_Wp (Ap : 'M[F]_(nbA + mdA, np)) (Jp : 'M[F]_(nbJ + mdJ, np)) : 'M[F]_(m, np) := col_mx Ap Jp.

(** EchelonizerW.cpp:91-106 (after updateWithPriorityWeights; [sigma] is the number added and
    subtracted by each cleanResidualRoundoffErrors) and 139-156 asMatrixViewRWQ *)
Definition ew_view (sigma : F) (x : xech F nbA mdA nbJ mdJ nnJ) (Wp : 'M[F]_(m, np)) : rwq F :=
  let y := ext_clean sigma x in                                                     (* 92 *)
  RWQ (rawm (xR y)) (rawm (xS y))                                                   (* 99, 104, 148-149 *)
      (rawm (clean_mx sigma (xR y *m Wp)))                                          (* 105, 107 *)
      (List.map (fun i => nat_of_ord (xQ y (lshift nnJ i))) (enum 'I_(nbA + nbJ)))         (* 151-152 *)
      (List.map (fun j => nat_of_ord (xQ y (rshift (nbA + nbJ) j))) (enum 'I_nnJ)).        (* 153 *)
End EchelonizerW.
