(** The problem of C92_threshold_refuted: min (x0^2 + x1^2)/2 without constraints. *)
From Coq Require Import List Arith Bool Reals Lra Lia.
From Verif Require Import Num Wrapper_model Wrapper_spec Wrapper_proofs P_Wrapper End_spec Status_spec Quadratic_spec.
Import ListNotations.
Local Open Scope R_scope.

Definition Hid : nat -> nat -> R := fun i j => if i =? j then 1 else 0.
Definition fsq : ofun R := fun x p c r =>
  ORes ((at_ x 0 ^ 2 + at_ x 1 ^ 2) / 2) (fun j => nth j [at_ x 0; at_ x 1] 0) Hid (o_fxp r) (o_fxc r) true false true.
Definition Psq : problem R xreal := Problem (Dims 2 0 0 0 0 0 0) None (Some fsq) (Some cfn0) (Some cfn0) (Some cfn0)
  mzeros mzeros mzeros mzeros [] [] [XNInf; XNInf] [XPInf; XPInf] [] [] [] mzeros mzeros.

Lemma case_sq : conforming Psq /\ equalities_only Psq /\ quadratic Psq Hid (fun _ => 0) /\ positive_along Psq Hid /\ independent_rows Psq /\ basic_uncancelled Psq.
Proof.
  split; [repeat split|]. split.
  { repeat split; destruct i as [|[|i]]; cbn in *; try reflexivity; lia. }
  split.
  { split.
    - intros i j. unfold Hid. rewrite Nat.eqb_sym. reflexivity.
    - intros x L. destruct x as [|a [|b [|]]]; try discriminate L. split; [|split].
      + cbn. unfold form, Hid, at_. cbn. unfold at_. cbn. lra.
      + intros j Hj. cbn in Hj. destruct j as [|[|j]]; [| |lia]; cbn; unfold Hid, at_; cbn; lra.
      + intros i j _ _. reflexivity. }
  split.
  { intros v _ [j Hj Nv]. cbn in Hj. unfold form, Hid. cbn.
    assert (0 <= v 0%nat * v 0%nat) by nra. assert (0 <= v 1%nat * v 1%nat) by nra.
    assert (S : forall t, t <> 0 -> 0 < t * t) by (intros t Ht; destruct (Rtotal_order t 0) as [A|[A|A]]; [|contradiction|]; nra).
    apply S in Nv. destruct j as [|[|j]]; [| |lia]; nra. }
  split.
  - intros a _ i Hi. cbn in Hi. lia.
  - intros jb V _ _ i Hi. cbn in Hi. lia.
Qed.
Lemma licq_sq x : licq Psq x [] [] [].
Proof. intros a1 b1 c1 e1 _ _ _. cbn [Psq p_dims d_x d_p d_be d_bg d_he d_hg]. repeat match goal with |- _ /\ _ => split end; intros i Hi; exfalso; lia. Qed.
Lemma not_near_sq tol jb u v : tol <= Rabs u -> ~ user_near Psq tol jb [u; v] [] [] [] [] [] [] [].
Proof.
  intros T (_ & _ & N & _). specialize (N 0%nat ltac:(cbn; lia)). revert N. cbn. unfold at_. cbn. unfold at_. cbn.
  intros [[A|[[A B]|[A B]]]|[_ [A|A]]]; try discriminate.
  revert A. match goal with |- Rabs ?v < _ -> _ => replace v with u end; [lra|]. ring.
Qed.
