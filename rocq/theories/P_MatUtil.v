(** Property theorems C19, C20, C23, C24. *)
From Coq Require Import List Arith Bool ZArith Reals Lra Lia.
From Coq Require Import Floats.SpecFloat.
Import ListNotations.
From Verif Require Import Num Index_spec Step_proofs MatUtil_model MatUtil_spec MatUtil_proofs.
Local Open Scope R_scope.

(** ** C19: matrices *)
Theorem C19_clean_matrix : forall m n (A : nat -> nat -> R) mx k l,
  (k < m)%nat -> (l < n)%nat -> largest m n A mx ->
  (Rabs (A k l) <= / 2 ^ 52 * mx * INR (Nat.max m n) -> cleanMat m n A k l = 0) /\
  (/ 2 ^ 52 * mx * INR (Nat.max m n) < Rabs (A k l) -> cleanMat m n A k l = A k l).
Proof. exact cleanMat_exact. Qed.
Print Assumptions C19_clean_matrix.

Theorem C19_clean_matrix_keeps_largest : forall m n (A : nat -> nat -> R) mx k l,
  (k < m)%nat -> (l < n)%nat -> largest m n A mx -> INR (Nat.max m n) < 2 ^ 52 -> Rabs (A k l) = mx ->
  cleanMat m n A k l = A k l.
Proof. exact cleanMat_keeps_largest. Qed.
Print Assumptions C19_clean_matrix_keeps_largest.

Theorem C19_clean_matrix_idempotent : forall m n (A : nat -> nat -> R) k l,
  (k < m)%nat -> (l < n)%nat -> cleanMat m n (cleanMat m n A) k l = cleanMat m n A k l.
Proof. exact cleanMat_idempotent. Qed.
Print Assumptions C19_clean_matrix_idempotent.

(** vectors are cleaned like matrices with one column, so the above applies *)
Theorem C19_clean_vector : forall n (v : nat -> R) k, (k < n)%nat ->
  cleanVec n v k = cleanMat n 1 (fun i _ => v i) k 0.
Proof. exact cleanVec_cleanMat. Qed.
Print Assumptions C19_clean_vector.

(** In any arithmetic (binary64 included): an entry is unchanged or zero. *)
Theorem C19_clean_matrix_unchanged_or_zero : forall T (N : Num T) m n (A : nat -> nat -> T) k l,
  (k < m)%nat -> (l < n)%nat -> cleanMat m n A k l = A k l \/ cleanMat m n A k l = nzero.
Proof.
  intros T N m n A k l Hk Hl. rewrite cleanMat_pointwise by assumption.
  destruct (nleb _ _); [right|left]; reflexivity.
Qed.
Print Assumptions C19_clean_matrix_unchanged_or_zero.

Definition ex_mat : nat -> nat -> R := fun i j => match i, j with 0%nat, 0%nat => -4 | 1%nat, 1%nat => / 2 ^ 60 | _, _ => 1 end.
Example C19_case : largest 2 2 ex_mat 4 /\ INR (Nat.max 2 2) < 2 ^ 52 /\
  Rabs (ex_mat 1 1) <= / 2 ^ 52 * 4 * INR (Nat.max 2 2) /\ / 2 ^ 52 * 4 * INR (Nat.max 2 2) < Rabs (ex_mat 0 1).
Proof.
  assert (P : 0 < / 2 ^ 60) by (apply Rinv_0_lt_compat, pow_lt; lra).
  assert (Q : / 2 ^ 60 < 1) by (apply Rmult_lt_reg_l with (2 ^ 60); [apply pow_lt; lra|]; rewrite Rinv_r by (apply pow_nonzero; lra); lra).
  simpl Nat.max. simpl INR. repeat split.
  - intros [|[|i]] [|[|j]] Hi Hj; try lia; unfold ex_mat; simpl; unfold Rabs; destruct (Rcase_abs _); simpl in *; lra.
  - exists 0%nat, 0%nat. repeat split; try lia. unfold ex_mat. rewrite Rabs_left; lra.
  - simpl; lra.
  - unfold ex_mat. rewrite Rabs_right by lra. simpl. lra.
  - unfold ex_mat. rewrite Rabs_right by lra. simpl. lra.
Qed.

(** ** C20 *)
Theorem C20_multiply : forall m n (A : nat -> nat -> R) x k, (k < m)%nat ->
  let b := Rsum n (fun j => A k j * x j) in
  let ref := Rsum n (fun j => Rabs (A k j) * Rabs (x j)) in
  let r := multiplyClean m n A x k in
  (Rabs b < ref * / 2 ^ 52 -> r = 0) /\ (ref * / 2 ^ 52 <= Rabs b -> r = b) /\ Rabs (r - b) <= / 2 ^ 52 * ref.
Proof. exact multiplyClean_exact. Qed.
Print Assumptions C20_multiply.
(** In binary64 0.1*3 - 0.3 leaves a residue, which is removed. *)
Example C20_case_b64 :
  let A := fun _ j : nat => match j with 0%nat => @ndiv spec_float _ (nofZ 1) (nofZ 10) | _ => ndiv (nofZ (-3)) (nofZ 10) end in
  let x := fun j : nat => match j with 0%nat => @nofZ spec_float _ 3 | _ => nofZ 1 end in
  dot 2 (A 0%nat) x <> nofZ 0 /\ multiplyClean 1 2 A x 0%nat = nofZ 0.
Proof. vm_compute. split; [discriminate|reflexivity]. Qed.

(** ** C23: square and one-column operands ... *)
Theorem C23_assign_square : forall T (N : Num T) (A B : matrix T),
  (0 < rows B)%nat -> rows B = cols B -> rows A = rows B -> cols A = cols B ->
  exists A', structured_assign A B = Some A' /\ rows A' = rows A /\ cols A' = cols A /\ entry A' = entry B.
Proof. intros T N. exact (@structured_assign_dense T N). Qed.
Print Assumptions C23_assign_square.

Theorem C23_assign_diagonal : forall T (N : Num T) (A B : matrix T),
  (1 < rows B)%nat -> cols B = 1%nat -> rows A = rows B -> cols A = rows B ->
  exists A', structured_assign A B = Some A' /\ rows A' = rows A /\ cols A' = cols A /\
    forall i j, entry A' i j = if Nat.eqb i j then entry B i 0%nat else nzero.
Proof. intros T N. exact (@structured_assign_diagonal T N). Qed.
Print Assumptions C23_assign_diagonal.

(** ... but an empty operand, which stands for the zero matrix, leaves the target as it
    was; so does a rectangular operand with more than one column. *)
Theorem C23_assign_zero_refuted : forall T (N : Num T) (A B : matrix T),
  (rows B = 0 \/ cols B = 0 \/ (rows B <> cols B /\ cols B <> 1))%nat -> structured_assign A B = Some A.
Proof. intros T N. exact (@structured_assign_other T N). Qed.
Print Assumptions C23_assign_zero_refuted.

Example C23_case : structured_assign (Mat 2 2 (fun _ _ => 7)) (Mat 0 0 (fun _ _ => 0)) = Some (Mat 2 2 (fun _ _ => 7)).
Proof. reflexivity. Qed.

(** ** C24: assignment of an expression, and assignOrError *)
Theorem C24_fixed_assign : forall T (A B : matrix T),
  (fixed_assign A B = Throws <-> (rows A <> rows B \/ cols A <> cols B) /\ ~ (rows A * cols A = 0 /\ rows B * cols B = 0))%nat /\
  (forall A', fixed_assign A B = Ok A' -> rows A' = rows A /\ cols A' = cols A /\
     forall i j, (i < rows A')%nat -> (j < cols A')%nat -> entry A' i j = entry B i j) /\
  assignOrError A B = fixed_assign A B.
Proof. exact (fun T => @fixed_assign_spec T). Qed.
Print Assumptions C24_fixed_assign.

(** Assigning one FixedMatrix (or FixedVector) to another uses the implicit copy
    assignment, which takes the size of the source without an error. *)
Theorem C24_fixed_copy_refuted : forall T (e : nat -> nat -> T), exists (A B A' : matrix T),
  fixed_copy_assign A B = Ok A' /\ rows A' <> rows A.
Proof. intros T e. exists (Mat 2 1 e), (Mat 3 1 e), (Mat 3 1 e). split; [reflexivity|discriminate]. Qed.
Print Assumptions C24_fixed_copy_refuted.

Theorem C24_ensureMinimumDimension : forall T fresh (A : matrix T) r c,
  let B := ensureMinimumDimension fresh A r c in
  rows B = Nat.max (rows A) r /\ cols B = Nat.max (cols A) c /\ ((r <= rows A)%nat -> (c <= cols A)%nat -> B = A).
Proof. exact (fun T => @ensureMinimumDimension_spec T). Qed.
Print Assumptions C24_ensureMinimumDimension.

Example C24_case : fixed_assign (Mat 2 1 (fun _ _ => 0)) (Mat 3 1 (fun _ _ => 1)) = Throws /\
  fixed_assign (Mat 2 1 (fun _ _ => 0)) (Mat 2 1 (fun _ _ => 1)) = Ok (Mat 2 1 (fun _ _ => 1)).
Proof. split; reflexivity. Qed.
