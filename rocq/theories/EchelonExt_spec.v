(** Specification vocabulary for C30. *)
From mathcomp Require Import all_ssreflect all_algebra.
From Verif Require Import Echelon_model EchelonExt_model.
Set Implicit Arguments.
Unset Strict Implicit.
Unset Printing Implicit Defensive.
Local Open Scope ring_scope.

Section ExtSpec.
Variables (F : realFieldType) (nbA mdA nbJ mdJ nnJ : nat).
(** The whole R, and: Q lists every variable once, R is invertible (its rows are
    independent and span everything), the first rows of R*[A;J]*Q are [I S]. *)
Definition xech_R (x : xech F nbA mdA nbJ mdJ nnJ) := col_mx (xR x) (xRb x).
Definition xcanonical (A : 'M[F]_(nbA + mdA, nbA + (nbJ + nnJ))) (J : 'M[F]_(nbJ + mdJ, nbA + (nbJ + nnJ)))
    (x : xech F nbA mdA nbJ mdJ nnJ) : Prop :=
  [/\ injective (xQ x), row_free (xech_R x), row_full (xech_R x)
    & usubmx (xech_R x *m colsub (xQ x) (col_mx A J)) = row_mx 1%:M (xS x)].
(** No exchange of a basic by a non-basic variable raises the weight of the basis. *)
Definition xexchange_optimal (w : 'I_(nbA + (nbJ + nnJ)) -> F) (x : xech F nbA mdA nbJ mdJ nnJ) : Prop :=
  forall i j, xS x i j != 0 -> w (xQ x (rshift (nbA + nbJ) j)) <= w (xQ x (lshift nnJ i)).
End ExtSpec.
