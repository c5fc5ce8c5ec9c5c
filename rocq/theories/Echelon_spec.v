(** Specification vocabulary for C25-C31. *)
From mathcomp Require Import all_ssreflect all_algebra.
From Verif Require Import Echelon_model.
Set Implicit Arguments.
Unset Strict Implicit.
Unset Printing Implicit Defensive.
Local Open Scope ring_scope.
Import Order.TTheory GRing.Theory Num.Theory.

Section EchelonSpec.
Variables (F : realFieldType) (nb md nn : nat).

(** The contract of a rank-revealing LU factorization: P and Q are permutations,
    P*A*Q = [Lbb; Lnb]*[Ubb Ubn], Lbb and Ubb are invertible (unit lower triangular
    and upper triangular with nonzero pivots). *)
Definition lu_contract (A : 'M[F]_(nb + md, nb + nn)) (f : lufactors F nb md nn) : Prop :=
  [/\ injective (lP f), injective (lQ f), lLbb f \in unitmx, lUbb f \in unitmx
    & mxsub (lP f) (lQ f) A = col_mx (lLbb f) (lLnb f) *m row_mx (lUbb f) (lUbn f)].

(** (R, S, Q) is a canonical form of A: Q lists every variable once, R is invertible,
    and the first nb rows of R*A*Q are [I S]. *)
Definition canonical (A : 'M[F]_(nb + md, nb + nn)) (e : ech F nb md nn) : Prop :=
  [/\ injective (eQ e), ech_R e \in unitmx & usubmx (ech_R e *m colsub (eQ e) A) = row_mx 1%:M (eS e)].

(** the matrix of C(): all rows *)
Definition canonical_all (A : 'M[F]_(nb + md, nb + nn)) (e : ech F nb md nn) : Prop :=
  ech_R e *m colsub (eQ e) A = ech_C e.

(** A call is made as the code asserts: the pivot of a swap is not zero, the orderings
    are permutations. *)
Definition op_ok (e : ech F nb md nn) (o : ech_op F nb nn) : Prop :=
  match o with
  | OpSwap ib jn => eS e ib jn != 0
  | OpWeights _ Kb Kn | OpOrder Kb Kn => injective Kb /\ injective Kn
  | _ => True
  end.
Fixpoint ops_ok (th : F) (s : ech_obj F nb md nn) (ops : seq (ech_op F nb nn)) : Prop :=
  match ops with
  | [::] => True
  | o :: ops' => op_ok (cur s) o /\ ops_ok th (ech_step th s o) ops'
  end.

(** the basic and the non-basic variables *)
Definition basic (e : ech F nb md nn) (i : 'I_nb) : 'I_(nb + nn) := eQ e (lshift nn i).
Definition nonbasic (e : ech F nb md nn) (j : 'I_nn) : 'I_(nb + nn) := eQ e (rshift nb j).

(** What std::sort with comparator w[v[l]] > w[v[r]] guarantees for the permuted
    positions K: a permutation, in descending order of weight. *)
Definition sorted_by (k : nat) (v : 'I_k -> F) (K : 'I_k -> 'I_k) : Prop :=
  injective K /\ forall i j : 'I_k, (i <= j)%N -> v (K j) <= v (K i).

(** No exchange of a basic by a non-basic variable (which needs a nonzero pivot) raises
    the weight of the basis. *)
Definition exchange_optimal (w : 'I_(nb + nn) -> F) (e : ech F nb md nn) : Prop :=
  forall i j, eS e i j != 0 -> w (nonbasic e j) <= w (basic e i).

(** Every entry looked at during the search for candidates is exactly zero or above the
    threshold (always so for threshold 0): no nonzero pivot is mistaken for a zero. *)
Fixpoint pivots_resolved (th : F) (w : 'I_(nb + nn) -> F) (e : ech F nb md nn) (rows : seq 'I_nb) : Prop :=
  match rows with
  | [::] => True
  | i :: rows' => (forall j, eS e i j = 0 \/ th < `|eS e i j|) /\ pivots_resolved th w (weight_pass th w e i) rows'
  end.
End EchelonSpec.
