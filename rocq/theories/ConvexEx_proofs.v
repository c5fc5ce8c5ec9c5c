(** A family of problems for C91: min s ((x0 - 1)^2 + (x1 - 2)^2)/2 subject to x0 + x1 = 3 and x >= 0. *)
From Coq Require Import List Arith Bool Reals Lra Lia.
From Verif Require Import Num Num_facts Wrapper_model Wrapper_spec Wrapper_proofs P_Wrapper Status_spec End_spec SensW_spec SensWEx_proofs Exact_spec Convex_spec Convex_proofs.
Import ListNotations.
Local Open Scope R_scope.

Definition f91 (s : R) : ofun R := fun x p c r =>
  ORes (s * ((at_ x 0 - 1) ^ 2 + (at_ x 1 - 2) ^ 2) / 2) (fun j => if j =? 0 then s * (at_ x 0 - 1) else s * (at_ x 1 - 2))
    (fun i j => if i =? j then s else 0) (o_fxp r) (o_fxc r) true false true.
Definition P91 (s : R) : problem R xreal := Problem (Dims 2 0 1 0 0 0 0) None (Some (f91 s)) (Some cfn0) (Some cfn0) (Some cfn0)
  (fun i j => 1) mzeros mzeros mzeros [3] [] [XF 0; XF 0] [XPInf; XPInf] [] [] [] mzeros mzeros.

Lemma within91 s x : within (p_xlower (P91 s)) (p_xupper (P91 s)) x -> length x = 2%nat -> exists a b, x = [a; b] /\ 0 <= a /\ 0 <= b.
Proof.
  intros W L. destruct x as [|a [|b [|]]]; try discriminate L. exists a, b. split; [reflexivity|].
  pose proof (proj1 (W 0%nat ltac:(simpl; lia))) as W0. pose proof (proj1 (W 1%nat ltac:(simpl; lia))) as W1.
  cbn in W0, W1. unfold rleb, at_ in W0, W1. cbn in W0, W1. do 2 destruct Rle_dec; try discriminate. lra.
Qed.
Lemma inside91 s a b : 0 <= a -> 0 <= b -> within (p_xlower (P91 s)) (p_xupper (P91 s)) [a; b].
Proof.
  intros A B i Hi. cbn in Hi. destruct i as [|[|i]]; [| |lia]; unfold bd, at_; cbn; (split; [apply xle; lra|reflexivity]).
Qed.
Lemma feasible91 s a b : feasible_for (P91 s) [] [a; b] <-> 0 <= a /\ 0 <= b /\ a + b = 3.
Proof.
  split.
  - intros (F1 & _ & _ & _ & W). destruct (within91 _ _ W eq_refl) as (a' & b' & E & A & B). injection E as -> ->.
    specialize (F1 0%nat ltac:(cbn; lia)). unfold lin, at_ in F1. cbn in F1. unfold at_ in F1. cbn in F1. lra.
  - intros (A & B & E). unfold feasible_for. cbn [P91 p_dims d_x d_p d_be d_bg d_he d_hg].
    repeat match goal with |- _ /\ _ => split end; try (intros i Hi; exfalso; lia); [|apply (inside91 s); assumption].
    intros i Hi. assert (i = 0%nat) as -> by lia. unfold lin, at_. cbn. unfold at_. cbn. lra.
Qed.
Lemma convex91 s : convex_problem (P91 s) s [].
Proof.
  intros x y Lx Ly WX WY. destruct (within91 _ _ WX Lx) as (a & b & -> & _). destruct (within91 _ _ WY Ly) as (c & e & -> & _).
  split; [split|split; intros i Hi; cbn in Hi; exfalso; lia].
  - intros t Ht. right. unfold along, distance2, at_. cbn -[pow]. unfold at_. cbn. field.
  - intros eps e0. unfold along, slope, at_. cbn -[pow]. unfold at_. cbn [nth].
    set (D := (c - a) ^ 2 + (e - b) ^ 2). assert (0 <= D) by (unfold D; pose proof (pow2_ge_0 (c - a)); pose proof (pow2_ge_0 (e - b)); lra).
    pose proof (Rabs_pos s).
    exists (eps / (Rabs s * D + 1)). assert (0 <= Rabs s * D) by (apply Rmult_le_pos; lra).
    split; [apply Rdiv_lt_0_compat; lra|]. intros t [t0 t1].
    match goal with |- Rabs ?v <= _ => replace v with (s * D * (t * t / 2)) by (unfold D; field) end.
    rewrite !Rabs_mult, (Rabs_right D) by lra. rewrite (Rabs_right (t * t / 2)) by (pose proof (Rle_0_sqr t); unfold Rsqr in *; lra).
    assert (t * (Rabs s * D + 1) <= eps).
    { apply Rlt_le.
      replace eps with (eps / (Rabs s * D + 1) * (Rabs s * D + 1)) by (field; lra). apply Rmult_lt_compat_r; lra. }
    assert (t * (t * (Rabs s * D + 1)) <= t * eps) by (apply Rmult_le_compat_l; lra).
    assert (0 <= t * t) by apply Rle_0_sqr. assert (0 <= (Rabs s * D) * (t * t)) by (apply Rmult_le_pos; lra). lra.
Qed.
Lemma kkt91 s : user_kkt (P91 s) [1; 2] [] [0] [] [] [].
Proof.
  unfold user_kkt, user_feasible. cbn [P91 p_dims d_x d_p d_be d_bg d_he d_hg].
  repeat match goal with |- _ /\ _ => split end; try (intros i Hi; exfalso; cbn in Hi; lia).
  - intros i Hi. assert (i = 0%nat) as -> by lia. unfold lin, at_. cbn. unfold at_. cbn. lra.
  - apply (inside91 s); lra.
  - intros j Hj. left. destruct j as [|[|j]]; [| |lia]; unfold at_; cbn; unfold at_; cbn; lra.
Qed.
Lemma exact91 s a b : user_exact (P91 s) [a; b] [] [1; 2] [].
Proof.
  unfold user_exact, constraint_exact. cbn [P91 p_dims d_x d_p d_be d_bg d_he d_hg].
  repeat match goal with |- _ /\ _ => split end; try (intros i j Hi Hj; exfalso; cbn in Hi; lia); try (intros i Hi; exfalso; cbn in Hi; lia).
  intros j Hj. unfold predicted. destruct j as [|[|j]]; [| |lia]; cbn; unfold at_; cbn; lra.
Qed.
(** for s > 0 the point (1, 2) is the minimum, for s < 0 the maximum *)
Lemma objective91 s a b : a + b = 3 -> objective (P91 s) [a; b] [] = objective (P91 s) [1; 2] [] + s * (a - 1) ^ 2.
Proof. intros E. replace b with (3 - a) by lra. unfold objective, at_. cbn. unfold at_. cbn. field. Qed.
Lemma licq91 s a b : 0 < a -> licq (P91 s) [a; b] [] [] [].
Proof.
  intros A a1 b1 c1 e1 _ _ H. cbn [P91 p_dims d_x d_p d_be d_bg d_he d_hg] in *.
  repeat match goal with |- _ /\ _ => split end; intros i Hi; try (exfalso; lia).
  assert (i = 0%nat) as -> by lia. specialize (H 0%nat ltac:(lia)). cbn in H. rewrite <- H; [lra|].
  unfold at_bound, bd, at_. cbn. intros [E|E]; [injection E|]; intros; [lra|discriminate].
Qed.
Lemma Ax91 f1 f2 f3 oAx oAp obc s M j : update_master f1 f2 f3 oAx oAp obc (P91 s) = Some M -> (j < 2)%nat -> mget (ms_Ax M) 0 j = 1.
Proof.
  intros U Hj. rewrite (Meq _ _ _ _ _ _ _ _ U). cbn [ms_Ax]. unfold master_Ax, mresize.
  destruct (_ =? m_rows oAx * m_cols oAx); destruct j as [|[|j]]; try lia; reflexivity.
Qed.
Lemma target91 f1 f2 f3 oAx oAp obc s M X : update_master f1 f2 f3 oAx oAp obc (P91 s) = Some M -> ctarget M X [] 0 = 3.
Proof. intros U. rewrite (Meq _ _ _ _ _ _ _ _ U). reflexivity. Qed.
Lemma small52 tol : 6 * / 2 ^ 52 < tol -> 0 < tol.
Proof. intros H. apply Rlt_trans with (2 := H). apply Rmult_lt_0_compat; [lra|]. apply Rinv_0_lt_compat, pow_lt. lra. Qed.
(** s = -1: the solution (0, 3), where x0 is on its bound with a derivative of the Lagrange function that is not zero *)
Lemma kkt91' : user_kkt (P91 (-1)) [0; 3] [] [1] [] [] [].
Proof.
  unfold user_kkt, user_feasible. cbn [P91 p_dims d_x d_p d_be d_bg d_he d_hg].
  repeat match goal with |- _ /\ _ => split end; try (intros i Hi; exfalso; cbn in Hi; lia).
  - intros i Hi. assert (i = 0%nat) as -> by lia. unfold lin, at_. cbn. unfold at_. cbn. lra.
  - apply (inside91 (-1)); lra.
  - intros j Hj. destruct j as [|[|j]]; [right; left| left |lia]; unfold at_; cbn; unfold at_; cbn; [split; [reflexivity|]|]; lra.
Qed.
Lemma licq91' s : licq (P91 s) [0; 3] [] [] [].
Proof.
  intros a1 b1 c1 e1 _ _ H. cbn [P91 p_dims d_x d_p d_be d_bg d_he d_hg] in *.
  repeat match goal with |- _ /\ _ => split end; intros i Hi; try (exfalso; lia).
  assert (i = 0%nat) as -> by lia. specialize (H 1%nat ltac:(lia)). cbn in H. rewrite <- H; [lra|].
  unfold at_bound, bd, at_. cbn. intros [E|E]; [injection E|]; intros; [lra|discriminate].
Qed.
Lemma local91 a b : feasible_for (P91 (-1)) [] [a; b] -> a < 2 -> a <> 0 -> objective (P91 (-1)) [0; 3] [] < objective (P91 (-1)) [a; b] [].
Proof. intros (A & _ & E)%feasible91 A2 A0. rewrite (objective91 _ a b E), (objective91 _ 0 3) by lra. simpl. nra. Qed.
Lemma maximum91 a b : feasible_for (P91 (-1)) [] [a; b] -> [a; b] <> [1; 2] -> objective (P91 (-1)) [a; b] [] < objective (P91 (-1)) [1; 2] [].
Proof.
  intros (_ & _ & E)%feasible91 N. rewrite (objective91 _ a b E). assert (0 < (a - 1) ^ 2); [|lra].
  rewrite <- Rsqr_pow2. apply Rsqr_pos_lt. intros H. apply N. f_equal; [lra|]. f_equal. lra.
Qed.
