(** Specification vocabulary for the index utilities. *)
From Coq Require Import List Arith Bool Permutation Reals.
Import ListNotations.
Local Open Scope nat_scope.
From Verif Require Import Num Index_model.

(** What the C++ standard guarantees for std::partition ([alg.partitions]): the
    range is permuted and the returned position separates the elements that
    satisfy the predicate from those that do not. *)
Definition partition_contract (part : partition_impl) : Prop :=
  forall p l out k, part p l = (out, k) ->
    Permutation l out /\ k <= length out /\
    (forall i, In i (firstn k out) -> p i = true) /\
    (forall i, In i (skipn k out) -> p i = false).

(** [splits base out k g1]: [out] is a permutation of [base] whose first [k]
    entries are exactly its entries in group 1. *)
Definition splits (base out : list nat) (k : nat) (g1 : nat -> Prop) : Prop :=
  Permutation base out /\ k <= length out /\
  (forall i, In i (firstn k out) -> g1 i) /\
  (forall i, In i (skipn k out) -> ~ g1 i).

(** Membership as a boolean, and the entries of [l] that are (not) in [p], in the
    order of [l] *)
Definition mem (l : list nat) (i : nat) : bool := if in_dec Nat.eq_dec i l then true else false.
Definition entries_in (p l : list nat) : list nat := filter (mem p) l.
Definition entries_not_in (p l : list nat) : list nat := filter (fun i => negb (mem p i)) l.

(** sum of f 0 ... f (n-1) over the reals *)
Fixpoint Rsum (n : nat) (f : nat -> R) : R :=
  match n with 0 => 0%R | S n' => (Rsum n' f + f n')%R end.

(** The stability s_i = g_i + sum_k W_ki w_k of variable i, in exact arithmetic *)
Definition exact_stability (W : list (list R)) (g w : list R) (i : nat) : R :=
  (nth i g 0 + Rsum (length W) (fun k => nth i (nth k W []) 0 * nth k w 0))%R.

(** Variable i sits on its lower bound and the gradient keeps it there
    (dually for the upper bound) *)
Definition held_lower {T} {N : Num T} (x xlower s : list T) (i : nat) : Prop :=
  neqb (nth i x nzero) (nth i xlower nzero) = true /\ nltb nzero (nth i s nzero) = true.
Definition held_upper {T} {N : Num T} (x xupper s : list T) (i : nat) : Prop :=
  neqb (nth i x nzero) (nth i xupper nzero) = true /\ nltb (nth i s nzero) nzero = true.

(** No number is both smaller and larger than another (true of all instances). *)
Class NumAsym (T : Type) {N : Num T} : Prop :=
  nltb_asym : forall a b, nltb a b = true -> nltb b a = false.
