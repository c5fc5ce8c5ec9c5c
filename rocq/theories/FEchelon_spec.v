(** How far the stored R, S, Q are from an echelon form of A in double precision. *)
From Coq Require Import Reals List Arith.
From Coq Require Import Floats.SpecFloat.
From Flocq Require Import Core.
From Verif Require Import Num Round_spec Float_proofs FSum_model FSum_spec FResidual_spec FEchelon_model.
Import ListNotations.
Local Open Scope R_scope.

(** a - b*c is computed with two roundings or with one *)
Definition rounded_ms (ms : spec_float -> spec_float -> spec_float -> spec_float) : Prop :=
  forall a b c, valid a -> valid b -> valid c ->
    ms a b c = nsub a (nmul b c) \/ fused (nopp b) c a (ms a b c).

Section Spec.
(** A has m rows and nb + nn columns *)
Variables (m nb nn : nat) (A : nat -> nat -> spec_float).

(** entry (i,j) of [I S] *)
Definition canonical (e : fech spec_float) (i j : nat) : R :=
  if Nat.ltb j nb then (if Nat.eqb i j then 1 else 0) else V (eS e i (j - nb)).
(** entry (i,j) of R A Q - [I S], exactly, for the stored R, S and Q *)
Definition off (e : fech spec_float) (i j : nat) : R :=
  sumn m (fun l => V (eR e i l) * V (A l (eQ e j))) - canonical e i j.
(** the stored R and S hold numbers *)
Definition numbers_in (e : fech spec_float) : Prop :=
  (forall i l, (i < nb)%nat -> (l < m)%nat -> isfin (eR e i l)) /\
  (forall i j, (i < nb)%nat -> (j < nn)%nat -> isfin (eS e i j)).

(** One exchange of basic variable ib and non-basic variable jn with pivot s = S(ib,jn).  Column
    [came] of the old A Q becomes column j; a row i other than ib has the multiplier S(i,jn)/s. *)
Definition came (ib jn j : nat) : nat :=
  if Nat.eqb j ib then (nb + jn)%nat else if Nat.eqb j (nb + jn) then ib else j.
Definition piv (e : fech spec_float) (ib jn : nat) : R := V (eS e ib jn).
Definition carried (e : fech spec_float) (ib jn i j : nat) : R :=
  if Nat.eqb i ib then Rabs (off e ib (came ib jn j) / piv e ib jn)
  else Rabs (off e i (came ib jn j)) + Rabs (V (eS e i jn) / piv e ib jn) * Rabs (off e ib (came ib jn j)).
(** the sizes of the terms that the new entry (i,l) of X = R or S is computed from *)
Definition mag (e : fech spec_float) (X : nat -> nat -> spec_float) (ib jn i l : nat) : R :=
  if Nat.eqb i ib then Rabs (V (X ib l) / piv e ib jn)
  else Rabs (V (X i l)) + Rabs (V (eS e i jn) * (V (X ib l) / piv e ib jn)).
Definition magS (e : fech spec_float) (ib jn i j : nat) : R :=
  if Nat.eqb j jn then (if Nat.eqb i ib then Rabs (1 / piv e ib jn) else Rabs (V (eS e i jn) / piv e ib jn))
  else mag e (eS e) ib jn i j.
(** the number of possible underflows, weighted by the factors they meet *)
Definition unders (e : fech spec_float) (X : nat -> nat -> spec_float) (ib jn i l : nat) : R :=
  2 + (if Nat.eqb i ib then 1 else Rabs (V (eS e i jn))) * (1 + Rabs (V (X ib l))).
(** the rounding errors of the exchange in entry (i,j) of R A Q - [I S] *)
Definition rounding (e e' : fech spec_float) (ib jn i j : nat) : R :=
  gam 4 * (sumn m (fun l => mag e (eR e) ib jn i l * Rabs (V (A l (eQ e' j)))) +
           (if Nat.ltb j nb then 0 else magS e ib jn i (j - nb))) +
  bpow radix2 (-1075) * (1 + gam 4) *
    (sumn m (fun l => unders e (eR e) ib jn i l * Rabs (V (A l (eQ e' j)))) +
     (if Nat.ltb j nb then 0 else unders e (eS e) ib jn i (j - nb))).

(** the sizes of the numbers: of the terms of the sums of R A, of the entries of S and A *)
Definition sizes_below (mu : R) (e : fech spec_float) : Prop :=
  (forall i l, (i < nb)%nat -> (l < m)%nat -> Rabs (V (eR e i l)) <= mu) /\
  (forall i j, (i < nb)%nat -> (j < nn)%nat -> Rabs (V (eS e i j)) <= mu) /\
  (forall i j, (i < nb)%nat -> (j < nb + nn)%nat -> sumn m (fun l => Rabs (V (eR e i l)) * Rabs (V (A l (eQ e j)))) <= mu).
Definition columns_below (al : R) (e : fech spec_float) : Prop :=
  forall j, (j < nb + nn)%nat -> sumn m (fun l => Rabs (V (A l (eQ e j)))) <= al.

(** a change that is allowed: indices in range; a pivot s with 1/|s| and |S(i,in)/s| at most G; for
    a cleanup, sigma at most sg *)
Definition tame_op (G sg : R) (e : fech spec_float) (o : f_op spec_float) : Prop :=
  match o with
  | FSwap ib jn => (ib < nb)%nat /\ (jn < nn)%nat /\ V (eS e ib jn) <> 0 /\ isfin (ndiv none1 (eS e ib jn)) /\
      1 <= G * Rabs (V (eS e ib jn)) /\
      forall i, (i < nb)%nat -> Rabs (V (eS e i jn)) <= G * Rabs (V (eS e ib jn))
  | FOrder Kb Kn => (forall i, (i < nb)%nat -> (Kb i < nb)%nat) /\ (forall j, (j < nn)%nat -> (Kn j < nn)%nat) /\
      forall i j, (i < nb)%nat -> (j < nb)%nat -> Kb i = Kb j -> i = j
  | FClean sigma => isfin sigma /\ Rabs (V sigma) <= sg
  end.
Fixpoint tame (ms : spec_float -> spec_float -> spec_float -> spec_float) (G sg mu al : R)
    (e : fech spec_float) (ops : list (f_op spec_float)) : Prop :=
  numbers_in e /\ sizes_below mu e /\ columns_below al e /\
  match ops with
  | [] => True
  | o :: r => tame_op G sg e o /\ tame ms G sg mu al (f_step ms nb e o) r
  end.

(** rounding errors of one change *)
Definition change_err (G sg mu al : R) : R :=
  gam 4 * (2 * (1 + G) * mu + sg * (1 + al)) + bpow radix2 (-1075) * (1 + gam 4) * ((1 + al) * (2 + (1 + mu) * (1 + mu))).
End Spec.
