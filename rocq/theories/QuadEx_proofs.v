(** The problem of C92_equality_case: min x0 x1 subject to x0 - x1 = 2, whose minimiser is (1, -1). *)
From Coq Require Import List Arith Bool Reals Lra Lia.
From Verif Require Import Num Wrapper_model Wrapper_spec Wrapper_proofs P_Wrapper Quadratic_spec.
Import ListNotations.
Local Open Scope R_scope.

Definition H92q : nat -> nat -> R := fun i j => nth j (nth i [[0; 1]; [1; 0]] []) 0.
Definition f92q : ofun R := fun x p c r =>
  ORes (at_ x 0 * at_ x 1) (fun j => nth j [at_ x 1; at_ x 0] 0) H92q (o_fxp r) (o_fxc r) false false true.
Definition P92q : problem R xreal := Problem (Dims 2 0 1 0 0 0 0) None (Some f92q) (Some cfn0) (Some cfn0) (Some cfn0)
  (fun i j => if j =? 0 then 1 else -1) mzeros mzeros mzeros [2] [] [XNInf; XNInf] [XPInf; XPInf] [] [] [] mzeros mzeros.

Lemma case92 : conforming P92q /\ equalities_only P92q /\ quadratic P92q H92q (fun _ => 0) /\ positive_along P92q H92q /\ independent_rows P92q /\ basic_uncancelled P92q.
Proof.
  split; [repeat split|]. split.
  { repeat split; destruct i as [|[|i]]; cbn in *; try reflexivity; lia. }
  split.
  { split.
    - intros i j. unfold H92q. destruct i as [|[|[|i]]], j as [|[|[|j]]]; cbn; try reflexivity; destruct i || destruct j || idtac; reflexivity.
    - intros x L. split; [|split].
      + unfold form, H92q, at_. cbn. unfold at_. cbn. field.
      + intros j Hj. destruct j as [|[|j]]; cbn in *; unfold H92q; cbn; unfold at_; [lra|lra|lia].
      + intros i j Hi Hj. reflexivity. }
  split.
  { intros v G [j Hj NZ]. specialize (G 0%nat ltac:(cbn; lia)). cbn in G, Hj.
    assert (E : v 0%nat = v 1%nat) by lra. unfold form, H92q. cbn. rewrite E.
    assert (v 1%nat <> 0) by (destruct j as [|[|j]]; [congruence|exact NZ|lia]).
    pose proof (Rsqr_pos_lt _ H). unfold Rsqr in H0. lra. }
  split.
  { intros a G i Hi. cbn in Hi. specialize (G 0%nat ltac:(cbn; lia)). cbn in G. assert (i = 0%nat) as -> by lia. lra. }
  intros jb V L IV i Hi. cbn in Hi. right. cbn -[pow]. unfold at_; cbn -[pow]. rewrite !Rplus_0_l, Rabs_mult.
  pose proof (Rmult_le_pos _ _ (Rabs_pos (V i 0%nat)) (Rabs_pos 2)) as PP.
  assert (/ 2 ^ 52 <= 1). { rewrite <- Rinv_1. apply Rinv_le_contravar; [lra|]. apply pow_R1_Rle. lra. }
  rewrite <- (Rmult_1_l (Rabs (V i 0%nat) * Rabs 2)) at 2. apply Rmult_le_compat_r; assumption.
Qed.
