(** Model of multiplyMatrixVectorWithoutResidualRoundOffError in binary64 for every order in which
    its sums can be evaluated (FSum_model.v).  MatUtil_model.v has the evaluation from left to
    right in any number system. *)
From Coq Require Import Reals List.
From Coq Require Import Floats.SpecFloat.
From Verif Require Import Num Round_spec FSum_model FResidual_model.
Import ListNotations.

(** Utils.cpp:561-579, one row of A: [ref] is the reference value |A| |x| of that row (line 574),
    [r] the returned entry, the computed product or zero *)
Definition computed_product (n : nat) (a x : nat -> spec_float) (ref r : spec_float) : Prop :=
  exists t, evalsum (map (fun j => prod (a j) (x j)) (seq 0 n)) t /\
            evalsum (map (fun j => prod (nabs (a j)) (nabs (x j))) (seq 0 n)) ref /\
            r = clean t ref.
