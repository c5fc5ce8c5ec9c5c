(** Property theorem C101, exact arithmetic: the echelonizer of FEchelon_model.v, read on a real field,
    does what that of Echelon_model.v does. *)
From mathcomp Require Import all_ssreflect all_algebra.
From Verif Require Import Num Num_rf Echelon_model.
From Verif Require FEchelon_model.
Set Implicit Arguments.
Unset Strict Implicit.
Unset Printing Implicit Defensive.
Import Order.TTheory GRing.Theory Num.Theory.
Local Open Scope ring_scope.
#[local] Existing Instance Num_rf.

Section Exact.
Variables (F : realFieldType) (nb md nn : nat).
Definition exact_ms (a b c : F) : F := a - b * c.
(** the two hold the same R (top rows), S and Q *)
Definition same_form (f : FEchelon_model.fech F) (e : ech F nb md nn) : Prop :=
  [/\ forall i l, FEchelon_model.eR f (nat_of_ord i) (nat_of_ord l) = eR e i l,
      forall i j, FEchelon_model.eS f (nat_of_ord i) (nat_of_ord j) = eS e i j &
      forall p, FEchelon_model.eQ f (nat_of_ord p) = nat_of_ord (eQ e p)].

Theorem C101_exact : forall f e, same_form f e ->
  (forall ib jn, same_form (FEchelon_model.f_swap exact_ms nb f (nat_of_ord ib) (nat_of_ord jn)) (ech_swap e ib jn)) /\
  (forall (Kb : 'I_nb -> 'I_nb) (Kn : 'I_nn -> 'I_nn) (kb kn : nat -> nat),
     (forall i, kb (nat_of_ord i) = nat_of_ord (Kb i)) -> (forall j, kn (nat_of_ord j) = nat_of_ord (Kn j)) ->
     same_form (FEchelon_model.f_order nb f kb kn) (ech_order e Kb Kn)) /\
  (forall sigma, same_form (FEchelon_model.f_clean sigma f) (ech_clean sigma e)).
Proof.
move=> f e [HR HS HQ]; split; [|split].
- move=> ib jn; have E (m n : nat) : Nat.eqb m n = (m == n) by apply/idP/idP => [/PeanoNat.Nat.eqb_eq ->|/eqP ->]; rewrite ?PeanoNat.Nat.eqb_refl.
  split=> [i l|i j|p].
  + rewrite /FEchelon_model.f_swap /FEchelon_model.f_rows /= E !mxE !HR !HS; case: (i =P ib) => [->|/eqP n]; rewrite ?eqxx //.
    by rewrite -[(i : nat) == ib]/(i == ib) (negPf n).
  + rewrite /FEchelon_model.f_swap /FEchelon_model.f_rows /= !E !mxE !HS -[(i : nat) == ib]/(i == ib) -[(j : nat) == jn]/(j == jn).
    by case: (j == jn); case: (i == ib); rewrite ?mxE ?HS.
  + rewrite /FEchelon_model.f_swap /= !E -(inj_eq (@ord_inj _)) -[in RHS](inj_eq (@ord_inj _)) /= -[Nat.add _ _]/(nb + jn)%N.
    case: ifP => _; first by rewrite -(HQ (rshift nb jn)).
    by case: ifP => _; [rewrite -(HQ (lshift nn ib))|rewrite HQ].
- move=> Kb Kn kb kn Hb Hn; split=> [i l|i j|p].
  + by rewrite /= Hb HR !mxE.
  + by rewrite /= Hb Hn HS !mxE.
  + rewrite /=; case: splitP => [i pi|j pj].
    * by rewrite pi (introT (PeanoNat.Nat.ltb_spec0 _ _) (elimT ssrnat.ltP (ltn_ord i))) Hb (HQ (lshift nn (Kb i))).
    * rewrite pj; have -> : Nat.ltb (nb + j) nb = false by apply/PeanoNat.Nat.ltb_ge; apply/ssrnat.leP; rewrite leq_addr.
      by rewrite minusE addKn Hn (HQ (rshift nb (Kn j))).
- move=> sigma; split=> [i l|i j|p] /=; by rewrite ?mxE ?HR ?HS ?HQ.
Qed.
End Exact.
Print Assumptions C101_exact.
