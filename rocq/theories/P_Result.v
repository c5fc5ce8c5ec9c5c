(** Property theorems C74. *)
From Coq Require Import List Reals Lra Lia.
From Verif Require Import Num Result_model.
Import ListNotations.

(** The result of a sequence of calculations, accumulated one after the other. *)
Definition accumulate {T Str} {N : Num T} (r0 : fullresult T Str) (l : list (fullresult T Str)) := fold_left result_add l r0.
Definition total (l : list nat) : nat := fold_right plus 0%nat l.
Definition totalR (l : list R) : R := fold_right Rplus 0%R l.

(** ** C74.  After any number of calculations the outcome and error are those of the last one
    and the iterations, evaluations and times listed here are totals.  Missing: the other
    fields, see [C74_accumulated_refuted]. *)
Theorem C74_accumulated_partial : forall (Str : Type) (r0 : fullresult R Str) (l : list (fullresult R Str)),
  let r := accumulate r0 l in
  f_succeeded r = f_succeeded (last l r0) /\ f_error r = f_error (last l r0) /\
  f_iterations r = total (map f_iterations (r0 :: l)) /\ f_evals r = total (map f_evals (r0 :: l)) /\
  f_time r = totalR (map f_time (r0 :: l)) /\ f_time_obj r = totalR (map f_time_obj (r0 :: l)) /\
  f_time_con r = totalR (map f_time_con (r0 :: l)) /\ f_time_lin r = totalR (map f_time_lin (r0 :: l)).
Proof.
  intros Str r0 l. cbn zeta. unfold accumulate, total, totalR. revert r0.
  induction l as [|a l IH]; intros r0; cbn [fold_left].
  - cbn. repeat split; try lia; lra.
  - destruct (IH (result_add r0 a)) as (H1 & H2 & H3 & H4 & H5 & H6 & H7 & H8).
    rewrite H1, H2, H3, H4, H5, H6, H7, H8. clear.
    split; [destruct l; [reflexivity|]|split; [destruct l; [reflexivity|]|]].
    + revert a f. induction l as [|c l IH]; intros; [reflexivity|]. apply (IH a c).
    + revert a f. induction l as [|c l IH]; intros; [reflexivity|]. apply (IH a c).
    + cbn [map fold_right result_add f_iterations f_evals f_time f_time_obj f_time_con f_time_lin nadd Num_R].
      repeat split; try lia; lra.
Qed.
Print Assumptions C74_accumulated_partial.

(** Two calculations of 3 evaluations of f each, 1 second of sensitivities each: the sum
    reports 3 evaluations and 1 second. *)
Definition r74 : fullresult R unit := FullResult true tt 1 0%R 0%R 0%R 3 3 3 3 3 1%R 1%R 1%R 1%R 1%R 1%R 1%R 1%R 1%R.
Theorem C74_accumulated_refuted : let r := accumulate r74 [r74] in
  f_evals r = 6%nat /\ f_evals_f r = 3%nat /\ f_evals_fx r = 3%nat /\ f_evals_fxx r = 3%nat /\ f_evals_fxp r = 3%nat /\
  f_time r = 2%R /\ f_time_f r = 1%R /\ f_time_sens r = 1%R.
Proof. cbn. repeat split; lra. Qed.
Print Assumptions C74_accumulated_refuted.
