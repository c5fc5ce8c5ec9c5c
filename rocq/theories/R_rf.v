(** The real numbers of the standard library as an ordered field of mathcomp.  The equality
    test is the one of the standard library; the choice operator that mathcomp asks for is
    taken from Coq.Logic.ClassicalEpsilon (its axioms appear in Print Assumptions). *)
From Coq Require Import Reals ClassicalEpsilon FunctionalExtensionality Lra.
From mathcomp Require Import all_ssreflect all_algebra.
From Verif Require Import Num.
Set Implicit Arguments.
Unset Strict Implicit.
Unset Printing Implicit Defensive.
Import GRing.Theory Num.Theory Order.TTheory.

Lemma reqP : Equality.axiom reqb.
Proof. by move=> x y; rewrite /reqb; case: Req_EM_T => H; constructor. Qed.
Canonical R_eqType := Eval hnf in EqType R (EqMixin reqP).

Definition R_find (P : pred R) (n : nat) : option R :=
  match excluded_middle_informative (exists x, P x) with
  | left H => Some (proj1_sig (constructive_indefinite_description (fun x => P x) H))
  | right _ => None
  end.
Lemma R_find_sound (P : pred R) n x : R_find P n = Some x -> P x.
Proof. by rewrite /R_find; case: excluded_middle_informative => // H [<-]; case: constructive_indefinite_description. Qed.
Lemma R_find_complete (P : pred R) : (exists x, P x) -> exists n, R_find P n.
Proof. by move=> H; exists 0%N; rewrite /R_find; case: excluded_middle_informative. Qed.
Lemma R_find_ext (P Q : pred R) : P =1 Q -> R_find P =1 R_find Q.
Proof. by move=> E n; have -> : P = Q by apply: functional_extensionality. Qed.
Canonical R_choiceType := Eval hnf in ChoiceType R (Choice.Mixin R_find_sound R_find_complete R_find_ext).

Lemma R_addA : associative Rplus. Proof. by move=> x y z; ring. Qed.
Lemma R_addC : commutative Rplus. Proof. by move=> x y; ring. Qed.
Lemma R_add0 : left_id R0 Rplus. Proof. by move=> x; ring. Qed.
Lemma R_addN : left_inverse R0 Ropp Rplus. Proof. by move=> x; ring. Qed.
Canonical R_zmodType := Eval hnf in ZmodType R (ZmodMixin R_addA R_addC R_add0 R_addN).

Lemma R_mulA : associative Rmult. Proof. by move=> x y z; ring. Qed.
Lemma R_mulC : commutative Rmult. Proof. by move=> x y; ring. Qed.
Lemma R_mul1 : left_id R1 Rmult. Proof. by move=> x; ring. Qed.
Lemma R_mulD : left_distributive Rmult Rplus. Proof. by move=> x y z; ring. Qed.
Lemma R_one : R1 != R0. Proof. by apply/eqP; lra. Qed.
Canonical R_ringType := Eval hnf in RingType R (ComRingMixin R_mulA R_mulC R_mul1 R_mulD R_one).
Canonical R_comRingType := Eval hnf in ComRingType R R_mulC.

Definition R_inv (x : R) : R := if x == R0 then R0 else Rinv x.
Lemma R_mulV : GRing.Field.axiom R_inv.
Proof. by move=> x x0; rewrite /R_inv (negbTE x0); apply: Rinv_l; apply/eqP. Qed.
Lemma R_inv0 : R_inv 0%R = 0%R. Proof. by rewrite /R_inv eqxx. Qed.
Definition R_unitMixin := FieldUnitMixin R_mulV R_inv0.
Canonical R_unitRingType := Eval hnf in UnitRingType R R_unitMixin.
Canonical R_comUnitRingType := Eval hnf in [comUnitRingType of R].
Lemma R_field : GRing.Field.mixin_of [unitRingType of R]. Proof. by []. Qed.
Canonical R_idomainType := Eval hnf in IdomainType R (FieldIdomainMixin R_field).
Canonical R_fieldType := FieldType R R_field.

Lemma rlebP x y : reflect (Rle x y) (rleb x y).
Proof. by rewrite /rleb; case: Rle_dec => H; constructor. Qed.
Lemma rltbP x y : reflect (Rlt x y) (rltb x y).
Proof. by rewrite /rltb; case: Rlt_dec => H; constructor. Qed.
Lemma R_le0D x y : rleb R0 x -> rleb R0 y -> rleb R0 (Rplus x y).
Proof. by move=> /rlebP ? /rlebP ?; apply/rlebP; lra. Qed.
Lemma R_le0M x y : rleb R0 x -> rleb R0 y -> rleb R0 (Rmult x y).
Proof. by move=> /rlebP ? /rlebP ?; apply/rlebP; apply: Rmult_le_pos. Qed.
Lemma R_le0_anti x : rleb R0 x -> rleb x R0 -> x = R0.
Proof. by move=> /rlebP ? /rlebP ?; lra. Qed.
Lemma R_sub_ge0 x y : rleb R0 (Rplus y (Ropp x)) = rleb x y.
Proof. by apply/rlebP/rlebP => ?; lra. Qed.
Lemma R_le0_total x : rleb R0 x || rleb x R0.
Proof. by apply/orP; case: (Rle_lt_dec R0 x) => H; [left | right]; apply/rlebP; lra. Qed.
Lemma R_normN x : Rabs (Ropp x) = Rabs x. Proof. exact: Rabs_Ropp. Qed.
Lemma R_ge0_norm x : rleb R0 x -> Rabs x = x.
Proof. by move=> /rlebP H; apply: Rabs_pos_eq. Qed.
Lemma R_lt_def x y : rltb x y = (y != x) && rleb x y.
Proof.
apply/rltbP/andP => [H|[/eqP H /rlebP H']]; last by have := Rdichotomy _ _ H; lra.
by split; [apply/eqP | apply/rlebP]; lra.
Qed.
Definition R_leMixin := RealLeMixin R_le0D R_le0M R_le0_anti R_sub_ge0 R_le0_total R_normN R_ge0_norm R_lt_def.
Canonical R_porderType := POrderType ring_display R R_leMixin.
Canonical R_latticeType := LatticeType R R_leMixin.
Canonical R_distrLatticeType := DistrLatticeType R R_leMixin.
Lemma R_total : totalPOrderMixin R_porderType. Proof. exact: R_leMixin. Qed.
Canonical R_orderType := OrderType R R_total.
Canonical R_numDomainType := NumDomainType R R_leMixin.
Canonical R_normedZmodType := NormedZmodType R R R_leMixin.
Canonical R_numFieldType := [numFieldType of R].
Canonical R_realDomainType := [realDomainType of R].
Canonical R_realFieldType := [realFieldType of R].

(** the operations are those of the standard library *)
Lemma R_addE (x y : R) : (x + y)%R = Rplus x y. Proof. by []. Qed.
Lemma R_mulE (x y : R) : (x * y)%R = Rmult x y. Proof. by []. Qed.
Lemma R_oppE (x : R) : (- x)%R = Ropp x. Proof. by []. Qed.
Lemma R_zeroE : (0%R : R) = R0. Proof. by []. Qed.
Lemma R_oneE : (1%R : R) = R1. Proof. by []. Qed.
Lemma R_normE (x : R) : `|x|%R = Rabs x. Proof. by []. Qed.
Lemma R_ltP (x y : R) : reflect (Rlt x y) (x < y)%R. Proof. exact: rltbP. Qed.
Lemma R_leP (x y : R) : reflect (Rle x y) (x <= y)%R. Proof. exact: rlebP. Qed.
