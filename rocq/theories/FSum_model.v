(** How a sum of numbers and of products is evaluated in binary64.  Neither the C++ standard nor
    Eigen fixes the order of the additions of a matrix-vector product such as Ax*x
    (ResidualVector.cpp:107-123, Utils.cpp:570-574), where the temporaries are, or whether a
    product and an addition are fused.  [evalsum l v] says that v is one of the possible results
    for the sum of the terms l; the theorems hold for all of them.  The terms are the exact
    values, infinite or NaN where a factor is. *)
From Coq Require Import Reals List Permutation.
From Coq Require Import Floats.SpecFloat.
From Verif Require Import Num Round_spec Float_proofs.
Import ListNotations.
Local Open Scope R_scope.

(** the result of a fused multiply-add: rounded once, if it is a number *)
Definition fused (a b v r : spec_float) : Prop :=
  valid r /\ (isfin r -> isfin a /\ isfin b /\ isfin v /\ V r = rnd (V a * V b + V v)).

Inductive evalsum : list xreal -> spec_float -> Prop :=
| es_zero : evalsum [] nzero                                                    (* an accumulator before the first term *)
| es_val x : valid x -> evalsum [xof x] x
| es_mul a b : valid a -> valid b -> evalsum [nmul (xof a) (xof b)] (nmul a b)
| es_fma a b l v r : evalsum l v -> fused a b v r -> evalsum (nmul (xof a) (xof b) :: l) r
| es_opp l v : evalsum l v -> evalsum (map nopp l) (nopp v)
| es_add l m v w : evalsum l v -> evalsum m w -> evalsum (l ++ m) (nadd v w)
| es_sub l m v w : evalsum l v -> evalsum m w -> evalsum (l ++ map nopp m) (nsub v w)
| es_perm l m v : evalsum l v -> Permutation l m -> evalsum m v.
