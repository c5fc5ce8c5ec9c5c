(** Property theorems C94: the step-length functions of Optima/Utils.cpp in double precision. *)
From Coq Require Import Reals ZArith List Bool Lia Lra.
From Coq Require Import Floats.SpecFloat.
From Flocq Require Import Core.
From Verif Require Import Num Num_facts Step_model Step_spec Step_proofs Round_spec Float_proofs Round_proofs StepRound_proofs.
Import ListNotations.
Local Open Scope R_scope.

(** m * 2^e as a double; vectors given by the list of their entries *)
Definition d64 (m e : Z) : spec_float := binary_normalize prec64 emax64 m e false.
Definition vec (l : list spec_float) : nat -> spec_float := fun i => nth i l S754_nan.

(** the entries of p and dp are numbers up to 2^1019, those of p are within the bounds *)
Definition good_step (n : nat) (p dp pl pu : nat -> spec_float) : Prop :=
  forall i, (i < n)%nat -> upto 1019 (p i) /\ upto 1019 (dp i) /\ valid (pl i) /\ valid (pu i) /\
    within (xof (pl i)) (xof (pu i)) (V (p i)).

(** ** performConservativeStep.  Every entry is a number that lies within its bounds.  The
    variables on a bound that dp pushes them out of do not move at all; the others move by the
    returned factor up to rounding.  If the factor is less than 1, then a variable that is not held
    ends exactly on one of its bounds, and a factor larger by 2^-51 would take it beyond. *)
Theorem C94_conservative : forall n (p dp pl pu : nat -> spec_float), good_step n p dp pl pu ->
  let P i := V (p i) in let D i := V (dp i) in let L i := xof (pl i) in let U i := xof (pu i) in
  let '(p', alpha) := performConservativeStep n p dp pl pu in
  isfin alpha /\ 0 <= V alpha <= 1 /\
  (forall i, (i < n)%nat -> isfin (p' i) /\ within (L i) (U i) (V (p' i))) /\
  (forall i, (i < n)%nat -> blocked P D L U i -> V (p' i) = P i) /\
  (forall i, (i < n)%nat -> ~ blocked P D L U i ->
     Rabs (V (p' i) - (P i + V alpha * D i)) <= bpow radix2 (-50) * (Rabs (P i) + Rabs (D i)) + bpow radix2 (-1073)) /\
  (V alpha < 1 -> exists j, (j < n)%nat /\ ~ blocked P D L U j /\ (xof (p' j) = L j \/ xof (p' j) = U j) /\
     forall b, V alpha + bpow radix2 (-51) < b -> ~ within (L j) (U j) (P j + b * D j)).
Proof.
  intros n p dp pl pu H P D L U. pose proof (conservative_round n p dp pl pu) as G.
  pose proof (conservative_bounds_b64 n p dp pl pu) as B.
  destruct (performConservativeStep n p dp pl pu) as [p' alpha]. cbn [fst] in B.
  destruct G as (G1 & G2 & G3 & G4 & G5 & G6);
    try (intros i I; destruct (H i I) as (Sp & Sd & Wl & Wu & [HL HU]); auto; rewrite xleb_of by (auto; apply isfin_valid, Sp);
         rewrite (xof_fin _ (proj1 Sp)); assumption).
  split; [exact G1|]. split; [exact G2|]. split; [|split; [exact G4|split; [exact G5|exact G6]]].
  intros i I. pose proof (G3 i I) as F. split; [exact F|]. destruct (B) with (i := i) as [B1 B2]; auto.
  - intros k K. destruct (H k K) as (Sp & Sd & Wl & Wu & [HL HU]). change (nleb (pl k) (pu k) = true). rewrite xleb_of by assumption.
    destruct (xof (pl k)), (xof (pu k)); cbn in *; try discriminate; try reflexivity. apply rleb_true in HL, HU. apply rleb_true. lra.
  - intros Q. rewrite Q in F. destruct F as [_ F]. discriminate.
  - destruct (H i I) as (Sp & Sd & Wl & Wu & _).
    change (nleb (pl i) (p' i) = true) in B1. change (nleb (p' i) (pu i) = true) in B2.
    rewrite xleb_of in B1, B2 by (auto; apply isfin_valid, F). rewrite (xof_fin _ F) in B1, B2. split; assumption.
Qed.
Print Assumptions C94_conservative.

(** ** performAggressiveStep: the projection of p + dp onto the bounds (C10), up to rounding. *)
Theorem C94_aggressive : forall n (p dp pl pu : nat -> spec_float), good_step n p dp pl pu ->
  forall i, (i < n)%nat -> let r := performAggressiveStep n p dp pl pu i in
  isfin r /\ exists z, within (xof (pl i)) (xof (pu i)) z /\
    (forall y, within (xof (pl i)) (xof (pu i)) y -> Rabs (z - (V (p i) + V (dp i))) <= Rabs (y - (V (p i) + V (dp i)))) /\
    Rabs (V r - z) <= bpow radix2 (-53) * Rabs (V (p i) + V (dp i)).
Proof.
  intros n p dp pl pu H i I r. destruct (aggressive_round n p dp pl pu H i I) as (F & z & Ez & B). split; [exact F|].
  destruct (aggressive_projection n (fun i => V (p i)) (fun i => V (dp i)) (fun i => xof (pl i)) (fun i => xof (pu i))) with (i := i) as (z' & Ez' & W & M).
  { intros k K. exists (V (p k)). apply (H k K). }
  { exact I. }
  rewrite Ez in Ez'. injection Ez' as <-. exists z. auto.
Qed.
Print Assumptions C94_aggressive.

(** three variables in [0,+inf), of which the second limits the step and the third is held *)
Definition ex_p := vec [d64 1 0; d64 3 0; d64 0 0].
Definition ex_dp := vec [d64 10 0; d64 (-9) 0; d64 (-1) 0].
Definition ex_pl : nat -> spec_float := vec [d64 0 0; d64 0 0; d64 0 0].
Definition ex_pu : nat -> spec_float := fun _ => ninf.

Example C94_case : good_step 3 ex_p ex_dp ex_pl ex_pu /\
  nltb (snd (performConservativeStep 3 ex_p ex_dp ex_pl ex_pu)) none1 = true.
Proof.
  split; [|vm_compute; reflexivity]. intros i I.
  assert (B : 16 <= bpow radix2 1019) by (change 16 with (bpow radix2 4); apply bpow_le; lia).
  destruct i as [|[|[|i]]]; [| | |lia]; unfold ex_p, ex_dp, ex_pl, ex_pu, vec; cbn [nth]; repeat split; try reflexivity;
    unfold V; cbn; unfold Defs.F2R; cbn; rewrite ?rleb_true; try (rewrite ?Rabs_R0; lra);
    try (apply Rle_trans with (2 := B); apply Rabs_le; lra); try lra.
Qed.

(** The factor itself need not be close to that of exact arithmetic: a bound that the full step
    violates by less than half a unit in the last place is not noticed.  Here the full step is
    taken, while the largest step that respects the bounds is less than 3/4 of it; the second
    variable, without bounds, goes to 1 instead of about 0.71. *)
Definition tw_p := vec [d64 (3 * 2 ^ 51 + 1) (-52); d64 0 0].
Definition tw_dp := vec [d64 (-45) (-57); d64 1 0].
Definition tw_pl := vec [d64 3 (-1); S754_infinity true].
Definition tw_pu : nat -> spec_float := fun _ => ninf.

Lemma tw_good : good_step 2 tw_p tw_dp tw_pl tw_pu.
Proof.
  intros i I. assert (B : 2 <= bpow radix2 1019) by (change 2 with (bpow radix2 1); apply bpow_le; lia).
  destruct i as [|[|i]]; [| |lia]; unfold tw_p, tw_dp, tw_pl, tw_pu, vec; cbn [nth]; repeat split; try reflexivity;
    unfold V; cbn; unfold Defs.F2R; cbn; rewrite ?rleb_true; try (rewrite ?Rabs_R0; lra);
    try (apply Rle_trans with (2 := B); apply Rabs_le; lra); try lra.
Qed.

Theorem C94_factor_refuted : exists n (p dp pl pu : nat -> spec_float), good_step n p dp pl pu /\
  snd (performConservativeStep n p dp pl pu) = none1 /\
  exists a, snd (performConservativeStep n (fun i => XF (V (p i))) (fun i => XF (V (dp i))) (fun i => xof (pl i)) (fun i => xof (pu i))) = XF a /\
    a < 3 / 4.
Proof.
  exists 2%nat, tw_p, tw_dp, tw_pl, tw_pu. split; [exact tw_good|]. split; [vm_compute; reflexivity|].
  set (P := fun i => V (tw_p i)). set (D := fun i => V (tw_dp i)). set (L := fun i => xof (tw_pl i)). set (U := fun i => xof (tw_pu i)).
  assert (FE : feasible 2 P L U) by (intros i I; apply (tw_good i I)).
  pose proof (conservative_exact 2 P D L U FE) as H.
  destruct (performConservativeStep 2 (fun i => XF (P i)) (fun i => XF (D i)) L U) as [p' alpha] eqn:E.
  destruct H as (a & -> & A01 & _ & NB & _). exists a. split; [exact (f_equal snd E)|].
  assert (P0 : P 0%nat = 3 / 2 + / 4503599627370496) by (unfold P, V; cbn; unfold Defs.F2R; cbn; lra).
  assert (D0 : D 0%nat = - (45 / 144115188075855872)) by (unfold D, V; cbn; unfold Defs.F2R; cbn; lra).
  assert (L0 : L 0%nat = XF (3 / 2)) by (unfold L, V; cbn; f_equal; unfold V, Defs.F2R; cbn; unfold Defs.F2R; cbn; lra).
  assert (U0 : U 0%nat = XPInf) by reflexivity.
  destruct (NB 0%nat ltac:(lia)) as [_ [W _]].
  { intros [[Q _]|[Q _]]; [rewrite L0 in Q; injection Q as Q; lra|rewrite U0 in Q; discriminate]. }
  rewrite L0, P0, D0 in W. cbn in W. apply rleb_true in W. lra.
Qed.
Print Assumptions C94_factor_refuted.

(** ** fractionToTheBoundary.  p > 0, and neither tau p nor the factor are below the normal range
    of doubles (2^-1022).  The factor is that of C12 up to rounding: no entry loses more than the
    fraction tau, and the entry returned loses exactly that. *)
Theorem C94_fraction : forall n (p dp : nat -> spec_float) tau,
  isfin tau -> 0 < V tau < 1 ->
  (forall i, (i < n)%nat -> upto 1020 (p i) /\ upto 1020 (dp i) /\ bpow radix2 (-1022) <= V tau * V (p i) /\
     bpow radix2 (-1021) * - V (dp i) <= V tau * V (p i)) ->
  let P i := V (p i) in let D i := V (dp i) in
  let '(alpha, j) := fractionToTheBoundary n p dp tau in
  isfin alpha /\ 0 < V alpha <= 1 /\
  (forall i, (i < n)%nat -> (1 - V tau * (1 + bpow radix2 (-51))) * P i <= P i + V alpha * D i) /\
  ((j = n /\ V alpha = 1) \/
   ((j < n)%nat /\ V alpha < 1 /\
    Rabs (P j + V alpha * D j - (1 - V tau) * P j) <= bpow radix2 (-51) * (V tau * P j))) /\
  (V tau <= 1 - bpow radix2 (-50) ->
     forall i, (i < n)%nat -> isfin (nadd (p i) (nmul alpha (dp i))) /\ 0 < V (nadd (p i) (nmul alpha (dp i)))).
Proof.
  intros n p dp tau Ft T01 H P D.
  assert (E2 : 2 * normal = bpow radix2 (-1021)) by (unfold normal; change 2 with (bpow radix2 1); now rewrite <- bpow_plus).
  assert (PP : forall i, (i < n)%nat -> 0 < V (p i)).
  { intros i I. destruct (H i I) as (_ & _ & N1 & _). pose proof (bpow_gt_0 radix2 (-1022)).
    destruct (Rle_dec (V (p i)) 0); [|lra]. exfalso. nra. }
  pose proof (fraction_round tau Ft T01 n p dp) as G.
  destruct (fractionToTheBoundary n p dp tau) as [alpha j].
  destruct G as (F & A01 & B & C).
  { intros i I. destruct (H i I) as ((Fp & Bp) & _). split; [exact Fp|]. split; [apply PP, I|].
    apply Rabs_le_inv in Bp. pose proof b1020_23. lra. }
  { intros i I. apply (H i I). }
  { intros i I. apply (H i I). }
  { intros i I. rewrite E2. apply (H i I). }
  split; [exact F|]. split; [exact A01|]. split; [exact B|]. split; [exact C|].
  intros T i I. destruct (H i I) as (Mp & Md & N1 & _). apply (fraction_update tau); auto. split; lra.
Qed.
Print Assumptions C94_fraction.

Example C94_fraction_case : let tau := d64 255 (-8) in let p := vec [d64 4 0; d64 6 0] in let dp := vec [d64 (-1) 0; d64 (-12) 0] in
  isfin tau /\ 0 < V tau < 1 /\ V tau <= 1 - bpow radix2 (-50) /\
  (forall i, (i < 2)%nat -> upto 1020 (p i) /\ upto 1020 (dp i) /\ bpow radix2 (-1022) <= V tau * V (p i) /\
     bpow radix2 (-1021) * - V (dp i) <= V tau * V (p i)) /\
  fractionToTheBoundary 2 p dp tau = (d64 255 (-9), 1%nat).
Proof.
  cbn zeta. assert (T : V (d64 255 (-8)) = 255 / 256) by (unfold V; cbn; unfold Defs.F2R; cbn; lra).
  split; [split; reflexivity|]. rewrite T. split; [lra|]. split.
  { assert (bpow radix2 (-50) <= bpow radix2 (-8)) by (apply bpow_le; lia). change (bpow radix2 (-8)) with (/ 256) in H. lra. }
  split; [|vm_compute; reflexivity].
  assert (B : 16 <= bpow radix2 1020) by (change 16 with (bpow radix2 4); apply bpow_le; lia).
  assert (B' : bpow radix2 (-1022) <= / 16) by (change (/ 16) with (bpow radix2 (-4)); apply bpow_le; lia).
  assert (B'' : bpow radix2 (-1021) <= / 16) by (change (/ 16) with (bpow radix2 (-4)); apply bpow_le; lia).
  intros i I. destruct i as [|[|i]]; [| |lia]; unfold vec; cbn [nth].
  - assert (P : V (d64 4 0) = 4) by (unfold V; cbn; unfold Defs.F2R; cbn; lra).
    assert (D : V (d64 (-1) 0) = -1) by (unfold V; cbn; unfold Defs.F2R; cbn; lra).
    split; [split; [split; reflexivity|rewrite P; apply Rabs_le; lra]|]. split; [split; [split; reflexivity|rewrite D; apply Rabs_le; lra]|].
    rewrite P, D. split; lra.
  - assert (P : V (d64 6 0) = 6) by (unfold V; cbn; unfold Defs.F2R; cbn; lra).
    assert (D : V (d64 (-12) 0) = -12) by (unfold V; cbn; unfold Defs.F2R; cbn; lra).
    split; [split; [split; reflexivity|rewrite P; apply Rabs_le; lra]|]. split; [split; [split; reflexivity|rewrite D; apply Rabs_le; lra]|].
    rewrite P, D. split; lra.
Qed.

(** Without the last hypothesis: for p = 5 * 2^-77 and dp = -2^1000 the factor is rounded up to the
    smallest positive double, and the step that should leave 1/16 of p gives a negative number. *)
Theorem C94_fraction_denormal_refuted : exists p dp tau : spec_float,
  isfin p /\ isfin dp /\ isfin tau /\ nltb nzero tau = true /\ nltb tau none1 = true /\ nltb nzero p = true /\
  let alpha := fst (fractionToTheBoundary 1 (fun _ => p) (fun _ => dp) tau) in
  nltb (nadd p (nmul alpha dp)) nzero = true.
Proof.
  exists (d64 5 (-77)), (d64 (-1) 1000), (d64 15 (-4)).
  repeat (split; [first [split; vm_compute; reflexivity|vm_compute; reflexivity]|]). vm_compute. reflexivity.
Qed.
Print Assumptions C94_fraction_denormal_refuted.
