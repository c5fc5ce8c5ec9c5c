(** Property theorems C01-C07. *)
From Coq Require Import List Arith Bool Permutation Reals ZArith.
From Coq Require Import Floats.SpecFloat.
Import ListNotations.
From Verif Require Import Num Index_model Index_spec Index_proofs.
Local Open Scope nat_scope.

(** The contract assumed of std::partition is met by libstdc++'s algorithm. *)
Theorem libstdcxx_partition_meets_contract : partition_contract libstdcxx_partition.
Proof. exact libstdcxx_contract. Qed.
Print Assumptions libstdcxx_partition_meets_contract.

Example libstdcxx_partition_runs :
  libstdcxx_partition Nat.even [1; 2; 3; 4; 5; 6] = ([6; 2; 4; 3; 5; 1], 3).
Proof. reflexivity. Qed.

(** ** C01 *)
Theorem C01_moveLeftIf : forall part, partition_contract part ->
  forall base p out k, moveLeftIf part base p = (out, k) ->
  splits base out k (fun i => p i = true) /\ k = length (filter p base).
Proof. exact moveLeftIf_splits. Qed.
Print Assumptions C01_moveLeftIf.

Theorem C01_moveRightIf : forall part, partition_contract part ->
  forall base p out k, moveRightIf part base p = (out, k) ->
  splits base out k (fun i => p i = false) /\ k = length (filter (fun i => negb (p i)) base).
Proof. exact moveRightIf_splits. Qed.
Print Assumptions C01_moveRightIf.

Theorem C01_stableMoveLeftIf : forall base p out k, stableMoveLeftIf base p = (out, k) ->
  splits base out k (fun i => p i = true) /\ k = length (filter p base) /\
  firstn k out = filter p base /\ skipn k out = filter (fun i => negb (p i)) base.
Proof. exact stableMoveLeftIf_splits. Qed.
Print Assumptions C01_stableMoveLeftIf.

Theorem C01_stableMoveRightIf : forall base p out k, stableMoveRightIf base p = (out, k) ->
  splits base out k (fun i => p i = false) /\ k = length (filter (fun i => negb (p i)) base) /\
  firstn k out = filter (fun i => negb (p i)) base /\ skipn k out = filter p base.
Proof. exact stableMoveRightIf_splits. Qed.
Print Assumptions C01_stableMoveRightIf.

Example C01_case : moveRightIf libstdcxx_partition [3; 2; 4; 3] Nat.odd = ([4; 2; 3; 3], 2)
  /\ stableMoveLeftIf [3; 2; 4; 3] Nat.even = ([2; 4; 3; 3], 2).
Proof. split; reflexivity. Qed.

(** ** C02: holds for every non-empty p ... *)
Theorem C02_moveIntersectionLeft_partial : forall part, partition_contract part ->
  forall base p out k, p <> [] -> moveIntersectionLeft part base p = (out, k) ->
  splits base out k (fun i => In i p).
Proof. exact moveIntersectionLeft_splits. Qed.
Print Assumptions C02_moveIntersectionLeft_partial.

Theorem C02_moveIntersectionLeftStable_partial : forall base p out k,
  p <> [] -> moveIntersectionLeftStable base p = (out, k) -> splits base out k (fun i => In i p).
Proof. exact moveIntersectionLeftStable_splits. Qed.
Print Assumptions C02_moveIntersectionLeftStable_partial.

Example C02_case : moveIntersectionLeft libstdcxx_partition [0; 1; 2; 3] [3; 7] = ([3; 1; 2; 0], 1)
  /\ [3; 7] <> [].
Proof. split; [reflexivity|discriminate]. Qed.

(** ... and fails for the empty p, whatever std::partition does: group 1 is
    reported to be the whole of base. *)
Theorem C02_moveIntersectionLeft_refuted : forall part,
  exists base p out k, moveIntersectionLeft part base p = (out, k) /\
  ~ splits base out k (fun i => In i p).
Proof.
  intros part. exists [0], [], [0], 1. split; [reflexivity|].
  intros (_ & _ & H & _). exact (H 0 (or_introl eq_refl)).
Qed.
Print Assumptions C02_moveIntersectionLeft_refuted.

(** ** C03 *)
Theorem C03_moveIntersectionRight : forall part, partition_contract part ->
  forall base p out k, moveIntersectionRight part base p = (out, k) ->
  splits base out k (fun i => ~ In i p).
Proof. exact moveIntersectionRight_splits. Qed.
Print Assumptions C03_moveIntersectionRight.

Theorem C03_moveIntersectionRightStable : forall base p out k,
  moveIntersectionRightStable base p = (out, k) -> splits base out k (fun i => ~ In i p).
Proof. exact moveIntersectionRightStable_splits. Qed.
Print Assumptions C03_moveIntersectionRightStable.

Example C03_case :
  moveIntersectionRight libstdcxx_partition [0; 1; 2; 3] [0; 9] = ([3; 1; 2; 0], 3) /\
  moveIntersectionRightStable [0; 1; 2; 3] [] = ([0; 1; 2; 3], 4).
Proof. split; reflexivity. Qed.

(** ** C04: the stable versions keep the order of base in both groups ... *)
Theorem C04_leftStable_keeps_order_of_base : forall base p out k,
  p <> [] -> moveIntersectionLeftStable base p = (out, k) ->
  firstn k out = entries_in p base /\ skipn k out = entries_not_in p base.
Proof. exact left_stable_order. Qed.
Print Assumptions C04_leftStable_keeps_order_of_base.

Theorem C04_rightStable_keeps_order_of_base : forall base p out k,
  moveIntersectionRightStable base p = (out, k) ->
  firstn k out = entries_not_in p base /\ skipn k out = entries_in p base.
Proof. exact right_stable_order. Qed.
Print Assumptions C04_rightStable_keeps_order_of_base.

(** ... and so not the order of p. *)
Theorem C04_order_of_p_refuted : exists base p, NoDup base /\ incl p base /\ NoDup p /\
  (let '(out, k) := moveIntersectionLeftStable base p in firstn k out <> p) /\
  (let '(out, k) := moveIntersectionRightStable base p in skipn k out <> p).
Proof.
  exists [0; 1; 2], [2; 0]. repeat split; try discriminate.
  - repeat constructor; simpl; intuition discriminate.
  - intros i [<-|[<-|[]]]; simpl; auto.
  - repeat constructor; simpl; intuition discriminate.
Qed.
Print Assumptions C04_order_of_p_refuted.

Example C04_case : moveIntersectionLeftStable [0; 1; 2] [2; 0] = ([0; 2; 1], 2).
Proof. reflexivity. Qed.

(** ** C05 *)
Theorem C05_difference : forall part, partition_contract part -> forall a b i,
  (In i b -> count_occ Nat.eq_dec (difference part a b) i = 0) /\
  (~ In i b -> count_occ Nat.eq_dec (difference part a b) i = count_occ Nat.eq_dec a i).
Proof. exact difference_count. Qed.
Print Assumptions C05_difference.

Theorem C05_intersect : forall part, partition_contract part -> forall a b i,
  (In i b -> count_occ Nat.eq_dec (intersect part a b) i = count_occ Nat.eq_dec a i) /\
  (~ In i b -> count_occ Nat.eq_dec (intersect part a b) i = 0).
Proof. exact intersect_count. Qed.
Print Assumptions C05_intersect.

Theorem C05_difference_intersect_complementary : forall part, partition_contract part ->
  forall a b, Permutation a (difference part a b ++ intersect part a b).
Proof. exact difference_intersect_perm. Qed.
Print Assumptions C05_difference_intersect_complementary.

Theorem C05_isIntersectionEmpty : forall a b,
  isIntersectionEmpty a b = true <-> (forall i, In i a -> In i b -> False).
Proof. exact isIntersectionEmpty_iff. Qed.
Print Assumptions C05_isIntersectionEmpty.

Example C05_case : difference libstdcxx_partition [4; 1; 4; 2] [1; 9] = [4; 2; 4] /\
  intersect libstdcxx_partition [4; 1; 4; 2] [4] = [4; 4] /\
  isIntersectionEmpty [1; 2] [3; 2] = false.
Proof. repeat split; reflexivity. Qed.

(** ** C06 *)
Theorem C06_always_a_partition : forall part nx h, partition_contract part ->
  Permutation (sp_stable (sp_run part nx h) ++ sp_unstable (sp_run part nx h)) (seq 0 nx).
Proof. exact sp_run_partition. Qed.
Print Assumptions C06_always_a_partition.

Theorem C06_setStable_partial : forall part nx h js, partition_contract part ->
  js <> [] -> NoDup js -> (forall i, In i js -> i < nx) ->
  let s := sp_setStable part (sp_run part nx h) js in
  Permutation (sp_stable s) js /\ sp_setStable_assert part (sp_run part nx h) js = true.
Proof. exact sp_setStable_exact. Qed.
Print Assumptions C06_setStable_partial.

Theorem C06_setUnstable : forall part nx h ju, partition_contract part ->
  NoDup ju -> (forall i, In i ju -> i < nx) ->
  let s := sp_setUnstable part (sp_run part nx h) ju in
  Permutation (sp_unstable s) ju /\ sp_setUnstable_assert part (sp_run part nx h) ju = true.
Proof. exact sp_setUnstable_exact. Qed.
Print Assumptions C06_setUnstable.

(** setStable of the empty set declares every variable stable. *)
Theorem C06_setStable_refuted : forall part, partition_contract part -> exists nx h js,
  NoDup js /\ (forall i, In i js -> i < nx) /\
  ~ Permutation (sp_stable (sp_setStable part (sp_run part nx h) js)) js.
Proof.
  intros part _. exists 1, [], []. split; [constructor|]. split; [intros i []|].
  intros H. apply Permutation_length in H. discriminate.
Qed.
Print Assumptions C06_setStable_refuted.

Example C06_case : let s := sp_run libstdcxx_partition 4 [SetUnstable [0; 2]; SetStable [2; 1]] in
  sp_stable s = [2; 1] /\ sp_unstable s = [3; 0].
Proof. split; reflexivity. Qed.

(** ** C07: correct for every non-empty set of basic variables; T may be the
    reals, the extended reals or binary64. *)
Theorem C07_stability_update_partial : forall (T : Type) (N : Num T) (NA : NumAsym T) part,
  partition_contract part ->
  forall Wx g x w xlower xupper jb,
  jb <> [] -> NoDup jb -> (forall i, In i jb -> i < length x) ->
  let t := stability_update part Wx g x w xlower xupper jb in
  let s := stab_s Wx g w in
  st_s t = s /\
  Permutation (status_js t ++ status_jlu t ++ status_juu t) (seq 0 (length x)) /\
  status_ju t = status_jlu t ++ status_juu t /\
  (forall i, In i jb -> In i (status_js t)) /\
  (forall i, In i (status_jlu t) <-> (i < length x /\ ~ In i jb /\ held_lower x xlower s i)) /\
  (forall i, In i (status_juu t) <-> (i < length x /\ ~ In i jb /\ held_upper x xupper s i)) /\
  (forall i, In i (status_jms t) <-> (In i jb /\ (held_lower x xlower s i \/ held_upper x xupper s i))).
Proof. exact @stability_update_correct. Qed.
Print Assumptions C07_stability_update_partial.

(** The numbers s compared with zero are g + tr(Wx) w. *)
Theorem C07_stability_values : forall W (g w : list R) i,
  length w = length W -> i < length g -> nth i (stab_s W g w) 0%R = exact_stability W g w i.
Proof. exact stab_s_exact. Qed.
Print Assumptions C07_stability_values.

(** With an empty jb no variable is ever declared unstable. *)
Theorem C07_empty_basis_all_stable : forall (T : Type) (N : Num T) part Wx (g x w xlower xupper : list T),
  partition_contract part ->
  let t := stability_update part Wx g x w xlower xupper [] in
  Permutation (status_js t) (seq 0 (length x)) /\ status_jlu t = [] /\ status_juu t = [].
Proof. exact @stability_empty_jb. Qed.
Print Assumptions C07_empty_basis_all_stable.

Definition f64 (z : Z) : spec_float := nofZ z.

Theorem C07_stability_update_refuted : forall part, partition_contract part ->
  exists (Wx : list (list spec_float)) g x w xlower xupper jb i,
  NoDup jb /\ (forall j, In j jb -> j < length x) /\
  i < length x /\ ~ In i jb /\ held_lower x xlower (stab_s Wx g w) i /\
  ~ In i (status_jlu (stability_update part Wx g x w xlower xupper jb)).
Proof.
  intros part Hc. exists [], [f64 1], [f64 0], [], [f64 0], [f64 1], [], 0.
  repeat split; try (intros i []; fail); [constructor|apply Nat.lt_0_1|intros []|].
  destruct (C07_empty_basis_all_stable _ _ part [] [f64 1] [f64 0] [] [f64 0] [f64 1] Hc) as (_ & -> & _).
  intros [].
Qed.
Print Assumptions C07_stability_update_refuted.

(** One constraint x0 + x1 + x2 + x3 with multiplier 2: variable 0 is basic on its
    bound, 1 is held at its lower bound, 3 at its upper bound, 2 is free. *)
Example C07_case :
  let t := stability_update libstdcxx_partition [[f64 1; f64 1; f64 1; f64 1]]
     [f64 0; f64 0; f64 (-2); f64 (-5)] [f64 0; f64 0; f64 1; f64 9] [f64 2]
     [f64 0; f64 0; f64 0; f64 0] [f64 9; f64 9; f64 9; f64 9] [0] in
  status_js t = [0; 2] /\ status_jlu t = [1] /\ status_juu t = [3] /\ status_jms t = [0].
Proof. vm_compute. repeat split; reflexivity. Qed.
