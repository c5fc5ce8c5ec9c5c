(** Property theorems C101: the echelon form in double precision. *)
From Coq Require Import Reals ZArith List Arith Bool Lia Lra.
From Coq Require Import Floats.SpecFloat.
From Flocq Require Import Core.
From Flocq Require BinarySingleNaN.
From Verif Require Import Num Round_spec Float_proofs Round_proofs FSum_model FSum_spec FSum_proofs FResidual_spec FResidual_proofs FEchelon_model FEchelon_spec FEchelon_proofs.
Import ListNotations.
Local Open Scope R_scope.

(** a - b*c with two roundings *)
Definition two_roundings (a b c : spec_float) : spec_float := nsub a (nmul b c).
Lemma two_ok : rounded_ms two_roundings.
Proof. intros a b c _ _ _. now left. Qed.

(** ** One exchange of a basic and a non-basic variable changes R A Q - [I S] as exact arithmetic
    would, up to rounding errors of the terms it computes with, whether or not a - b*c is fused. *)
Theorem C101_swap : forall m nb nn A ms e ib jn, rounded_ms ms -> (ib < nb)%nat -> (jn < nn)%nat ->
  V (eS e ib jn) <> 0 -> numbers_in m nb nn e -> numbers_in m nb nn (f_swap ms nb e ib jn) ->
  forall i j, (i < nb)%nat -> (j < nb + nn)%nat ->
  Rabs (off m nb A (f_swap ms nb e ib jn) i j) <= carried m nb A e ib jn i j + rounding m nb A e (f_swap ms nb e ib jn) ib jn i j.
Proof. intros m nb nn A ms e ib jn M Hb Hn Ns Fe Fe' i j Hi Hj. now apply (off_swap m nb nn A ms M e ib jn). Qed.
Print Assumptions C101_swap.

(** ** After any number of exchanges, reorderings and cleanups in which no multiplier is larger than G and
    all numbers stay below mu, R A Q - [I S] is at most (1 + G)^n times its first value and n times
    the rounding error of one change. *)
Theorem C101_drift_partial : forall m nb nn A ms G sg mu al e ops D, rounded_ms ms ->
  0 <= G -> 0 <= sg -> 1 <= mu -> 0 <= al -> 0 <= D -> tame m nb nn A ms G sg mu al e ops ->
  (forall i j, (i < nb)%nat -> (j < nb + nn)%nat -> Rabs (off m nb A e i j) <= D) ->
  forall i j, (i < nb)%nat -> (j < nb + nn)%nat ->
  Rabs (off m nb A (f_run ms nb e ops) i j) <= (1 + G) ^ length ops * (D + INR (length ops) * change_err G sg mu al).
Proof. intros m nb nn A ms G sg mu al e ops D M HG Hsg Hmu Hal HD HT HW. now apply run_drift. Qed.
Print Assumptions C101_drift_partial.

(** ** updateWithPriorityWeights is at most nb exchanges, with pivots above the threshold, and a reordering *)
Fixpoint pivots_above (th : spec_float) (nb nn : nat) ms (e : fech spec_float) (sw : list (nat * nat)) : Prop :=
  match sw with
  | [] => True
  | (ib, jn) :: r => (ib < nb)%nat /\ (jn < nn)%nat /\ nleb (nabs (eS e ib jn)) th = false /\ pivots_above th nb nn ms (f_swap ms nb e ib jn) r
  end.

Lemma lt_minf x : nltb x (nopp ninf) = false.
Proof. destruct x as [s|s| |s p q]; try reflexivity; destruct s; reflexivity. Qed.
Lemma cand_ok th nb nn w (e : fech spec_float) i : let c := f_candidate th nb nn w e i in
  c = (nopp ninf, 0%nat) \/ ((snd c < nn)%nat /\ nleb (nabs (eS e i (snd c))) th = false).
Proof.
  unfold f_candidate.
  assert (Gn : forall l acc, (forall k, In k l -> (k < nn)%nat) ->
    (acc = (nopp ninf, 0%nat) \/ ((snd acc < nn)%nat /\ nleb (nabs (eS e i (snd acc))) th = false)) ->
    let c := fold_left (fun acc k => if nleb (nabs (eS e i k)) th then acc
      else let tmp := w (eQ e (nb + k)) in if nltb (fst acc) tmp then (tmp, k) else acc) l acc in
    c = (nopp ninf, 0%nat) \/ ((snd c < nn)%nat /\ nleb (nabs (eS e i (snd c))) th = false)).
  { induction l as [|k l IH]; intros acc Hl Ha; [exact Ha|]. cbn [fold_left]. apply IH; [intros; apply Hl; now right|].
    destruct (nleb (nabs (eS e i k)) th) eqn:E; [exact Ha|]. cbn zeta. destruct (nltb (fst acc) (w (eQ e (nb + k)))); [|exact Ha]. right. cbn [snd]. split; [apply Hl; now left|exact E]. }
  apply Gn; [intros k Hk; apply in_seq in Hk; lia|now left].
Qed.

Theorem C101_weights : forall ms th nb nn w e Kb Kn, exists sw, (length sw <= nb)%nat /\ pivots_above th nb nn ms e sw /\
  f_weights ms th nb nn w e Kb Kn = f_run ms nb e (map (fun p => FSwap (fst p) (snd p)) sw ++ [FOrder Kb Kn]).
Proof.
  intros ms th nb nn w e Kb Kn.
  assert (Gn : forall l e, (forall i, In i l -> (i < nb)%nat) -> exists sw, (length sw <= length l)%nat /\ pivots_above th nb nn ms e sw /\
    fold_left (f_pass ms th nb nn w) l e = f_run ms nb e (map (fun p => FSwap (fst p) (snd p)) sw)).
  { induction l as [|i l IH]; intros e0 Hl; [exists []; cbn; auto|]. cbn [fold_left].
    destruct (IH (f_pass ms th nb nn w e0 i) ltac:(intros; apply Hl; now right)) as (sw & L & P & E). rewrite E.
    unfold f_pass in *. cbn zeta in *. destruct (nltb (w (eQ e0 i)) (fst (f_candidate th nb nn w e0 i))) eqn:Q.
    - destruct (cand_ok th nb nn w e0 i) as [C|[C1 C2]].
      + exfalso. rewrite C in Q. cbn [fst] in Q. now rewrite lt_minf in Q.
      + exists ((i, snd (f_candidate th nb nn w e0 i)) :: sw). cbn [length]. split; [lia|]. split; [|reflexivity].
        cbn [pivots_above]. split; [apply Hl; now left|]. auto.
    - exists sw. cbn [length]. split; [lia|]. auto. }
  destruct (Gn (seq 0 nb) e) as (sw & L & P & E); [intros i Hi; apply in_seq in Hi; lia|]. rewrite seq_length in L.
  exists sw. split; [exact L|]. split; [exact P|]. unfold f_weights, f_run. rewrite fold_left_app. cbn [fold_left f_step]. f_equal. exact E.
Qed.
Print Assumptions C101_weights.

(** ** A case: A = [1 3].  x1 is replaced by x2 (1/3 is rounded), back again, and a cleanup with 100. *)
Definition c1 : spec_float := Eval vm_compute in nofZ 1.
Definition c3 : spec_float := Eval vm_compute in nofZ 3.
Definition c100 : spec_float := Eval vm_compute in nofZ 100.
Definition A101 (l j : nat) : spec_float := if Nat.eqb j 0 then c1 else c3.
Definition e101 : fech spec_float := FEch (fun _ _ => c1) (fun _ _ => c3) (fun p => p).
Definition ops101 : list (f_op spec_float) := [FSwap 0 0; FSwap 0 0; FClean c100].

Lemma V_c1 : V c1 = 1. Proof. unfold V, c1, BinarySingleNaN.SF2R, F2R. cbn. lra. Qed.
Definition third : spec_float := Eval vm_compute in ndiv c1 c3.
Lemma V_c3 : V c3 = 3. Proof. unfold V, c3, BinarySingleNaN.SF2R, F2R. cbn. lra. Qed.
Lemma V_c100 : V c100 = 100. Proof. unfold V, c100, BinarySingleNaN.SF2R, F2R. cbn. lra. Qed.
Lemma V_third : 1 / 4 < V third < 1 / 2. Proof. unfold V, third, BinarySingleNaN.SF2R, F2R. cbn. lra. Qed.
Definition one_by_one (r x : spec_float) (e : fech spec_float) : Prop := eR e 0%nat 0%nat = r /\ eS e 0%nat 0%nat = x /\ (forall j, (j < 2)%nat -> (eQ e j < 2)%nat).
Lemma sized101 r x e : one_by_one r x e -> isfin r -> isfin x -> Rabs (V r) <= 3 -> Rabs (V x) <= 10 ->
  numbers_in 1 1 1 e /\ sizes_below 1 1 1 A101 10 e /\ columns_below 1 1 1 A101 3 e.
Proof.
  intros (Er & Ex & Eq) Fr Fx Hr Hx.
  assert (HA : forall j, 0 <= Rabs (V (A101 0 j)) <= 3).
  { intros j. unfold A101. destruct (Nat.eqb j 0); [rewrite V_c1, Rabs_R1|rewrite V_c3, Rabs_pos_eq by lra]; lra. }
  split; [|split; [split; [|split]|]].
  - split; intros i l Hi Hl; replace i with 0%nat by lia; replace l with 0%nat by lia; [now rewrite Er|now rewrite Ex].
  - intros i l Hi Hl. replace i with 0%nat by lia. replace l with 0%nat by lia. rewrite Er. lra.
  - intros i l Hi Hl. replace i with 0%nat by lia. replace l with 0%nat by lia. rewrite Ex. lra.
  - intros i j Hi Hj. replace i with 0%nat by lia. unfold sumn. cbn [seq map]. unfold Lsum. cbn [fold_right]. rewrite Er, Rplus_0_r.
    pose proof (HA (eQ e j)). pose proof (Rabs_pos (V r)).
    apply Rle_trans with (3 * 3); [|lra]. apply Rmult_le_compat; lra.
  - intros j Hj. unfold sumn. cbn [seq map]. unfold Lsum. cbn [fold_right]. pose proof (HA (eQ e j)). lra.
Qed.
Lemma Q2 e ib jn : (ib = 0)%nat -> (jn = 0)%nat -> (forall j, (j < 2)%nat -> (eQ e j < 2)%nat) -> forall j, (j < 2)%nat -> (eQ (f_swap two_roundings 1 e ib jn) j < 2)%nat.
Proof. intros -> -> H [|[|j]] Hj; cbn; [apply H; lia|apply H; lia|lia]. Qed.
Example C101_case : tame 1 1 1 A101 two_roundings 4 100 10 3 e101 ops101 /\
  off 1 1 A101 e101 0 0 = 0 /\ off 1 1 A101 e101 0 1 = 0 /\
  off 1 1 A101 (f_run two_roundings 1 e101 (firstn 1 ops101)) 0 0 <> 0.
Proof.
  assert (F1 : isfin c1) by (split; reflexivity). assert (F3 : isfin c3) by (split; reflexivity). assert (Ft : isfin third) by (split; reflexivity).
  assert (B1 : Rabs (V c1) <= 3) by (rewrite V_c1, Rabs_R1; lra).
  assert (B3 : Rabs (V c3) <= 10) by (rewrite V_c3, Rabs_pos_eq; lra).
  pose proof V_third as T.
  assert (Bt : Rabs (V third) <= 3) by (rewrite Rabs_pos_eq; lra). assert (Bt' : Rabs (V third) <= 10) by lra.
  assert (O0 : one_by_one c1 c3 e101) by (split; [|split]; auto).
  assert (O1 : one_by_one third third (f_swap two_roundings 1 e101 0 0)).
  { split; [|split]; [vm_compute; reflexivity|vm_compute; reflexivity|apply Q2; auto]. }
  assert (O2 : one_by_one c1 c3 (f_swap two_roundings 1 (f_swap two_roundings 1 e101 0 0) 0 0)).
  { split; [|split]; [vm_compute; reflexivity|vm_compute; reflexivity|]. apply Q2; auto. apply O1. }
  assert (O3 : one_by_one c1 c3 (f_clean c100 (f_swap two_roundings 1 (f_swap two_roundings 1 e101 0 0) 0 0))).
  { split; [|split]; [vm_compute; reflexivity|vm_compute; reflexivity|]. apply O2. }
  assert (P : forall x e, eS e 0%nat 0%nat = x -> 1 / 4 <= V x -> isfin (ndiv none1 x) -> tame_op 1 1 4 100 e (FSwap 0 0)).
  { intros x e Ex Hx Fx. cbn [tame_op]. rewrite Ex. rewrite Rabs_pos_eq by lra.
    split; [lia|]. split; [lia|]. split; [lra|]. split; [exact Fx|]. split; [lra|]. intros i Hi. replace i with 0%nat by lia. rewrite Ex, Rabs_pos_eq; lra. }
  split; [|split; [|split]].
  - unfold ops101. cbn [tame f_step].
    destruct (sized101 _ _ _ O0 F1 F3 B1 B3) as (H1 & H2 & H3). split; [exact H1|]. split; [exact H2|]. split; [exact H3|].
    split; [apply (P c3); [reflexivity|rewrite V_c3; lra|split; reflexivity]|]. clear H1 H2 H3.
    destruct (sized101 _ _ _ O1 Ft Ft Bt Bt') as (H1 & H2 & H3). split; [exact H1|]. split; [exact H2|]. split; [exact H3|].
    split; [apply (P third); [apply O1|lra|split; reflexivity]|]. clear H1 H2 H3.
    destruct (sized101 _ _ _ O2 F1 F3 B1 B3) as (H1 & H2 & H3). split; [exact H1|]. split; [exact H2|]. split; [exact H3|].
    split; [split; [split; reflexivity|rewrite V_c100, Rabs_pos_eq; lra]|]. clear H1 H2 H3.
    destruct (sized101 _ _ _ O3 F1 F3 B1 B3) as (H1 & H2 & H3). auto.
  - change (V c1 * V c1 + 0 - 1 = 0). rewrite V_c1. lra.
  - change (V c1 * V c3 + 0 - V c3 = 0). rewrite V_c1. lra.
  - unfold off, canonical, sumn. cbn [seq map]. unfold Lsum. cbn [fold_right].
    change (f_run two_roundings 1 e101 (firstn 1 ops101)) with (f_swap two_roundings 1 e101 0 0). destruct O1 as (-> & _ & _).
    change (V (A101 0 (eQ (f_swap two_roundings 1 e101 0 0) 0))) with (V c3). rewrite V_c3.
    change (if (0 <? 1)%nat then if (0 =? 0)%nat then 1 else 0 else V (eS (f_swap two_roundings 1 e101 0 0) 0 (0 - 1))) with 1.
    assert (Q : V third < 1 / 3) by (unfold V, third, BinarySingleNaN.SF2R, F2R; cbn; lra). lra.
Qed.

(** ** Refuted: the bound has no meaning for the pivots that the threshold of 1e-8 lets pass.  A = [I S] has three
    rows, entries of at most 1 in magnitude, and R = I, S, Q are exact.  One call of updateWithPriorityWeights with larger weights for the
    last three variables exchanges all three, with pivots above 1e-8 in magnitude as computed, though
    the columns of these variables are linearly dependent: no R has R A Q = [I S], and a row of R A Q - [I S] has entries whose
    magnitudes add up to at least 1. *)
Definition th8 : spec_float := S754_finite false 6044629098073146 (-79).   (* 1e-8 *)
Definition q8 (n : Z) : spec_float := ndiv (nofZ n) (nofZ 8).
Definition eps101 : spec_float := S754_finite false 6755399441055744 (-79). (* 3 * 2^-28 *)
Definition S101 (i j : nat) : spec_float :=
  match i, j with
  | 0, 0 => eps101 | 0, 1 => q8 (-4) | 0, 2 => q8 7
  | 1, 0 => q8 7 | 1, 1 => q8 0 | 1, 2 => q8 (-4)
  | 2, 0 => nadd (q8 7) eps101 | 2, 1 => q8 (-4) | 2, 2 => q8 3
  | _, _ => q8 0
  end.
Definition AS101 (l j : nat) : spec_float := if Nat.ltb j 3 then (if Nat.eqb l j then q8 8 else q8 0) else S101 l (j - 3).
Definition w101 (j : nat) : spec_float := nofZ (nth j [3; 2; 1; 6; 5; 4]%Z 0%Z).
Definition start101 : fech spec_float := FEch (fun i l => if Nat.eqb i l then q8 8 else q8 0) S101 (fun p => p).
Definition end101 : fech spec_float := f_weights two_roundings th8 3 3 w101 start101 (fun i => i) (fun j => j).
(** the sum of the columns of variables 3, 4, 5 with these factors is zero *)
Definition z101 (j : nat) : R := nth j [1; 49 / 16 + 6 / 268435456; 7 / 4] 0.

Lemma VS101 : V (AS101 0 3) = 3 / 268435456 /\ V (AS101 0 4) = - (1 / 2) /\ V (AS101 0 5) = 7 / 8 /\
  V (AS101 1 3) = 7 / 8 /\ V (AS101 1 4) = 0 /\ V (AS101 1 5) = - (1 / 2) /\
  V (AS101 2 3) = 7 / 8 + 3 / 268435456 /\ V (AS101 2 4) = - (1 / 2) /\ V (AS101 2 5) = 3 / 8.
Proof.
  assert (E : forall x y, x = y -> V y = V x) by (intros; subst; reflexivity).
  repeat split; match goal with |- V ?x = _ => let y := eval vm_compute in x in rewrite <- (E x y) by (vm_compute; reflexivity) end;
    unfold V, BinarySingleNaN.SF2R, F2R; cbn; lra.
Qed.
Lemma A101_cases l j : (l < 3)%nat -> (j < 6)%nat -> isfin (AS101 l j) /\ Rabs (V (AS101 l j)) <= 1.
Proof.
  intros Hl Hj. pose proof VS101 as (V03 & V04 & V05 & V13 & V14 & V15 & V23 & V24 & V25).
  assert (V8 : V (q8 8) = 1) by (unfold V, BinarySingleNaN.SF2R, F2R; cbn; lra).
  assert (V0 : V (q8 0) = 0) by reflexivity.
  split.
  - destruct l as [|[|[|l]]]; [| | |lia]; (destruct j as [|[|[|[|[|[|j]]]]]]; [| | | | | |lia]); split; vm_compute; reflexivity.
  - destruct l as [|[|[|l]]]; [| | |lia]; (destruct j as [|[|[|[|[|[|j]]]]]]; [| | | | | |lia]);
      rewrite ?V03, ?V04, ?V05, ?V13, ?V14, ?V15, ?V23, ?V24, ?V25; unfold AS101; cbn [Nat.ltb Nat.leb Nat.eqb]; rewrite ?V8, ?V0;
      apply Rabs_le; lra.
Qed.
Lemma sumn3 f : sumn 3 f = f 0%nat + f 1%nat + f 2%nat.
Proof. unfold sumn. cbn [seq map]. unfold Lsum. cbn [fold_right]. ring. Qed.

Theorem C101_refuted :
  (forall l j, (l < 3)%nat -> (j < 6)%nat -> isfin (AS101 l j) /\ Rabs (V (AS101 l j)) <= 1) /\
  (forall i j, (i < 3)%nat -> (j < 6)%nat -> off 3 3 AS101 start101 i j = 0) /\
  let e' := f_weights two_roundings th8 3 3 w101 start101 (fun i => i) (fun j => j) in
  numbers_in 3 3 3 e' /\ map (eQ e') [0; 1; 2]%nat = [3; 4; 5]%nat /\
  (forall l, (l < 3)%nat -> sumn 3 (fun j => z101 j * V (AS101 l (eQ e' j))) = 0) /\
  sumn 3 (fun j => Rabs (off 3 3 AS101 e' 1 j)) >= 1.
Proof.
  pose proof VS101 as (V03 & V04 & V05 & V13 & V14 & V15 & V23 & V24 & V25).
  split; [exact A101_cases|]. split.
  { assert (V8 : V (q8 8) = 1) by (unfold V, BinarySingleNaN.SF2R, F2R; cbn; lra).
    assert (V0 : V (q8 0) = 0) by reflexivity.
    intros i j Hi Hj. unfold off, canonical. rewrite sumn3. unfold start101. cbn [eR eS eQ].
    destruct i as [|[|[|i]]]; [| | |lia]; (destruct j as [|[|[|[|[|[|j]]]]]]; [| | | | | |lia]);
      cbn [Nat.eqb Nat.ltb Nat.leb Nat.sub]; rewrite ?V8, ?V0; unfold AS101; cbn [Nat.ltb Nat.leb Nat.eqb Nat.sub]; rewrite ?V8, ?V0; lra. }
  cbn zeta. fold end101.
  assert (Q : map (eQ end101) [0; 1; 2]%nat = [3; 4; 5]%nat) by (vm_compute; reflexivity).
  assert (Q0 : eQ end101 0 = 3%nat) by (vm_compute; reflexivity). assert (Q1 : eQ end101 1 = 4%nat) by (vm_compute; reflexivity). assert (Q2 : eQ end101 2 = 5%nat) by (vm_compute; reflexivity).
  split; [|split; [exact Q|split]].
  - split; intros i l Hi Hl; (destruct i as [|[|[|i]]]; [| | |lia]); (destruct l as [|[|[|l]]]; [| | |lia]); split; vm_compute; reflexivity.
  - intros l Hl. rewrite sumn3, Q0, Q1, Q2. unfold z101. cbn [nth].
    destruct l as [|[|[|l]]]; [| | |lia]; rewrite ?V03, ?V04, ?V05, ?V13, ?V14, ?V15, ?V23, ?V24, ?V25; lra.
  - rewrite sumn3. unfold off, canonical. rewrite !sumn3, Q0, Q1, Q2, V03, V04, V05, V13, V14, V15, V23, V24, V25. cbn [Nat.ltb Nat.leb Nat.eqb].
    set (r0 := V (eR end101 1 0)). set (r1 := V (eR end101 1 1)). set (r2 := V (eR end101 1 2)). clearbody r0 r1 r2.
    match goal with |- Rabs ?a + Rabs ?b + Rabs ?c >= 1 => assert (E : a + (49 / 16 + 6 / 268435456) * b + 7 / 4 * c = - (49 / 16 + 6 / 268435456)) by lra;
      set (x := a) in *; set (y := b) in *; set (z := c) in * end. clearbody x y z.
    unfold Rabs. destruct (Rcase_abs x), (Rcase_abs y), (Rcase_abs z); lra.
Qed.
Print Assumptions C101_refuted.
