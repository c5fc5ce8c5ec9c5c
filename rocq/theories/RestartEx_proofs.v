(** The problem of C98_refuted: min s sqrt(1 + x0^2) + x1^2/2 subject to x1 = 0.  Newton's method maps x0 to -x0^3. *)
From Coq Require Import List Arith Bool Reals Lra Lia Psatz.
From Coquelicot Require Import Coquelicot.
From Verif Require Import Num Num_facts Loop_model Loop_spec Loop_proofs Stay_proofs Wrapper_model Wrapper_spec Wrapper_proofs P_Wrapper Status_spec End_spec SensW_spec SensWEx_proofs Exact_spec Convex_spec Convex_proofs.
Import ListNotations.
Local Open Scope R_scope.

Definition rt (a : R) : R := sqrt (1 + a ^ 2).
Definition f98 (s : R) : ofun R := fun x p c r =>
  ORes (s * rt (at_ x 0) + at_ x 1 ^ 2 / 2)
    (fun j => nth j [s * at_ x 0 / rt (at_ x 0); at_ x 1] 0)
    (fun i j => nth j (nth i [[s / rt (at_ x 0) ^ 3; 0]; [0; 1]] []) 0) (o_fxp r) (o_fxc r) true false true.
Definition P98 (s : R) : problem R xreal := Problem (Dims 2 0 1 0 0 0 0) None (Some (f98 s)) (Some cfn0) (Some cfn0) (Some cfn0)
  (fun i j => if j =? 1 then 1 else 0) mzeros mzeros mzeros [0] [] [XNInf; XNInf] [XPInf; XPInf] [] [] [] mzeros mzeros.

Lemma rt_sq a : rt a * rt a = 1 + a ^ 2.
Proof. unfold rt. apply sqrt_sqrt. pose proof (pow2_ge_0 a). lra. Qed.
Lemma rt_ge1 a : 1 <= rt a.
Proof. unfold rt. rewrite <- sqrt_1 at 1. apply sqrt_le_1_alt. pose proof (pow2_ge_0 a). lra. Qed.
Lemma rt_prod a b : 1 + a * b <= rt a * rt b.
Proof.
  pose proof (rt_ge1 a). pose proof (rt_ge1 b). pose proof (rt_sq a) as A. pose proof (rt_sq b) as B.
  assert (P : 0 <= rt a * rt b) by (apply Rmult_le_pos; lra).
  apply Rsqr_incr_0_var; [|exact P]. unfold Rsqr.
  replace (rt a * rt b * (rt a * rt b)) with ((rt a * rt a) * (rt b * rt b)) by ring. rewrite A, B.
  pose proof (pow2_ge_0 (a - b)). nra.
Qed.
Lemma rt_convex a b t : 0 < t < 1 -> rt (a + t * (b - a)) <= rt a + t * (rt b - rt a).
Proof.
  intros T. pose proof (rt_ge1 a) as GA. pose proof (rt_ge1 b) as GB. pose proof (rt_sq a) as A. pose proof (rt_sq b) as B. pose proof (rt_prod a b) as C.
  set (m := a + t * (b - a)). pose proof (rt_ge1 m). pose proof (rt_sq m) as M.
  assert (P1 : 0 <= (1 - t) * rt a) by (apply Rmult_le_pos; lra). assert (P2 : 0 <= t * rt b) by (apply Rmult_le_pos; lra).
  apply Rsqr_incr_0_var; [|lra]. unfold Rsqr. rewrite M.
  replace ((rt a + t * (rt b - rt a)) * (rt a + t * (rt b - rt a))) with
    ((1 - t) * (1 - t) * (rt a * rt a) + t * t * (rt b * rt b) + 2 * (t * (1 - t)) * (rt a * rt b)) by ring.
  rewrite A, B. assert (Q : 0 <= 2 * (t * (1 - t))) by (apply Rmult_le_pos; [lra|apply Rmult_le_pos; lra]).
  apply Rle_trans with ((1 - t) * (1 - t) * (1 + a ^ 2) + t * t * (1 + b ^ 2) + 2 * (t * (1 - t)) * (1 + a * b)).
  - apply Req_le. unfold m. ring.
  - apply Rplus_le_compat_l. apply Rmult_le_compat_l; assumption.
Qed.
Lemma rt_tangent a m : 0 <= rt m - rt a - a / rt a * (m - a) <= (m - a) ^ 2 / 2.
Proof.
  pose proof (rt_ge1 a) as GA. pose proof (rt_ge1 m) as GM. pose proof (rt_sq a) as A. pose proof (rt_sq m) as M. pose proof (rt_prod m a) as C.
  assert (E : rt m - rt a - a / rt a * (m - a) = (rt m * rt a - (1 + a * m)) / rt a).
  { replace (1 + a * m) with (rt a * rt a - a ^ 2 + a * m) by (rewrite A; ring). field. lra. }
  rewrite E. assert (I1 : 0 < / rt a <= 1). { split; [apply Rinv_0_lt_compat; lra|]. rewrite <- Rinv_1. apply Rinv_le_contravar; lra. }
  assert (N : 0 <= rt m * rt a - (1 + a * m)) by (rewrite (Rmult_comm a m); lra).
  assert (U : rt m * rt a - (1 + a * m) <= (m - a) ^ 2 / 2) by (pose proof (pow2_ge_0 (rt m - rt a)); nra).
  unfold Rdiv at 1 2. split; [apply Rmult_le_pos; lra|].
  apply Rle_trans with ((rt m * rt a - (1 + a * m)) * 1); [apply Rmult_le_compat_l; lra|lra].
Qed.
Lemma rt_even a : rt (- a) = rt a.
Proof. unfold rt. f_equal. ring. Qed.

Lemma feasible98 s u v : feasible_for (P98 s) [] [u; v] <-> v = 0.
Proof.
  split.
  - intros (F1 & _). specialize (F1 0%nat ltac:(cbn; lia)). unfold lin, at_ in F1. cbn in F1. unfold at_ in F1. cbn in F1. lra.
  - intros ->. unfold feasible_for. cbn [P98 p_dims d_x d_p d_be d_bg d_he d_hg].
    repeat match goal with |- _ /\ _ => split end; try (intros i Hi; exfalso; lia).
    + intros i Hi. assert (i = 0%nat) as -> by lia. unfold lin, at_. cbn. unfold at_. cbn. lra.
    + intros i Hi. cbn in Hi. destruct i as [|[|i]]; [| |lia]; unfold bd, at_; cbn; split; reflexivity.
Qed.
Lemma objective98 s u v : objective (P98 s) [u; v] [] = s * rt u + v ^ 2 / 2.
Proof. reflexivity. Qed.
Lemma convex98 s : 0 < s -> convex_problem (P98 s) 0 [].
Proof.
  intros s0 x y Lx Ly _ _. destruct x as [|a [|b [|]]]; try discriminate Lx. destruct y as [|a' [|b' [|]]]; try discriminate Ly.
  split; [split|split; intros i Hi; cbn in Hi; exfalso; lia].
  - intros t Ht. unfold along, distance2, at_. cbn -[pow rt]. unfold at_. cbn -[pow rt].
    pose proof (rt_convex a a' t Ht) as C. apply (Rmult_le_compat_l s) in C; [|lra].
    assert (0 <= t * (1 - t)) by (apply Rmult_le_pos; lra). pose proof (pow2_ge_0 (b' - b)).
    assert (0 <= t * (1 - t) * (b' - b) ^ 2) by (apply Rmult_le_pos; assumption). nra.
  - intros eps e0. unfold along, slope, at_. cbn -[pow rt]. unfold at_. cbn -[pow rt].
    set (D := (s * (a' - a) ^ 2 + (b' - b) ^ 2) / 2).
    assert (D0 : 0 <= D). { pose proof (pow2_ge_0 (a' - a)). pose proof (pow2_ge_0 (b' - b)). assert (0 <= s * (a' - a) ^ 2) by (apply Rmult_le_pos; lra). unfold D. lra. }
    exists (eps / (D + 1)). split; [apply Rdiv_lt_0_compat; lra|]. intros t [t0 t1].
    assert (T1 : t * (D + 1) <= eps).
    { apply Rlt_le. replace eps with (eps / (D + 1) * (D + 1)) by (field; lra). apply Rmult_lt_compat_r; lra. }
    destruct (rt_tangent a (a + t * (a' - a))) as [L U].
    set (K := rt (a + t * (a' - a)) - rt a - a / rt a * (a + t * (a' - a) - a)) in *.
    match goal with |- Rabs ?v <= _ => replace v with (s * K + t ^ 2 * (b' - b) ^ 2 / 2) end.
    2:{ unfold K. pose proof (rt_ge1 a). field. lra. }
    assert (K1 : 0 <= s * K <= s * (t ^ 2 * (a' - a) ^ 2 / 2)).
    { split; [apply Rmult_le_pos; lra|]. apply Rmult_le_compat_l; [lra|]. apply Rle_trans with (1 := U). apply Req_le. field. }
    assert (0 <= t ^ 2 * (b' - b) ^ 2) by (apply Rmult_le_pos; apply pow2_ge_0).
    rewrite Rabs_right by lra.
    apply Rle_trans with (t * (t * D)); [unfold D; lra|]. rewrite (Rmult_comm eps). apply Rmult_le_compat_l; lra.
Qed.
Lemma hessian98 s a b : derivable_pt_lim (fun t => o_fx (ovalue (uf (P98 s)) [t; b] [] []) 0) a (o_fxx (ovalue (uf (P98 s)) [a; b] [] []) 0 0).
Proof.
  apply is_derive_Reals. cbn. unfold at_. cbn.
  pose proof (rt_ge1 a) as G. pose proof (rt_sq a) as Q. unfold rt in *. pose proof (pow2_ge_0 a) as Z.
  auto_derive; change (1 + a * (a * 1)) with (1 + a ^ 2).
  - split; [|split]; [lra|lra|exact I].
  - set (q := sqrt (1 + a ^ 2)) in *.
    replace (s / (q * (q * (q * 1)))) with (s * (q * q - a ^ 2) / (q * (q * (q * 1)))) by (rewrite Q; f_equal; ring).
    field. lra.
Qed.
Lemma minimises98 s : 0 < s -> minimises (P98 s) [] [0; 0] /\ forall x, length x = 2%nat -> minimises (P98 s) [] x -> x = [0; 0].
Proof.
  intros s0. assert (R0' : rt 0 = 1) by (unfold rt; replace (1 + 0 ^ 2) with 1 by ring; apply sqrt_1).
  split; [split|].
  - apply feasible98. reflexivity.
  - intros y Ly FY. destruct y as [|a [|b [|]]]; try discriminate Ly. apply feasible98 in FY. subst b. rewrite !objective98, R0'.
    pose proof (rt_ge1 a). assert (s * 1 <= s * rt a) by (apply Rmult_le_compat_l; lra). lra.
  - intros x Lx [FX M]. destruct x as [|a [|b [|]]]; try discriminate Lx. apply feasible98 in FX. subst b.
    specialize (M [0; 0] eq_refl ltac:(apply feasible98; reflexivity)). rewrite !objective98, R0' in M.
    assert (rt a <= 1) by (apply (Rmult_le_reg_l s); lra). pose proof (rt_ge1 a). pose proof (rt_sq a) as Q. assert (E : rt a = 1) by lra. rewrite E in Q.
    f_equal. apply Rsqr_0_uniq. unfold Rsqr. lra.
Qed.
Lemma licq98 s u v : licq (P98 s) [u; v] [] [] [].
Proof.
  intros a1 b1 c1 e1 _ _ H. cbn [P98 p_dims d_x d_p d_be d_bg d_he d_hg] in *.
  repeat match goal with |- _ /\ _ => split end; intros i Hi; try (exfalso; lia).
  assert (i = 0%nat) as -> by lia. specialize (H 1%nat ltac:(lia)). cbn in H. rewrite <- H; [lra|].
  unfold at_bound, bd, at_. cbn. intros [E|E]; discriminate.
Qed.
Lemma Ax98 f1 f2 f3 oAx oAp obc s M j : update_master f1 f2 f3 oAx oAp obc (P98 s) = Some M -> (j < 2)%nat -> mget (ms_Ax M) 0 j = if j =? 1 then 1 else 0.
Proof.
  intros U Hj. rewrite (Meq _ _ _ _ _ _ _ _ U). cbn [ms_Ax]. unfold master_Ax, mresize.
  destruct (_ =? m_rows oAx * m_cols oAx); destruct j as [|[|j]]; try lia; reflexivity.
Qed.
(** the gradient at (8, 0) is below 0.9925 s, at |u| >= 512 above 0.9975 s *)
Lemma grad_small s : 0 < s -> Rabs (s * 8 / rt 8) < s * (397 / 400).
Proof.
  intros s0. pose proof (rt_ge1 8) as G. pose proof (rt_sq 8) as Q.
  rewrite Rabs_right by (apply Rle_ge; unfold Rdiv; apply Rmult_le_pos; [lra|apply Rlt_le, Rinv_0_lt_compat; lra]).
  apply (Rmult_lt_reg_r (rt 8)); [lra|]. unfold Rdiv at 1. rewrite Rmult_assoc, Rinv_l, Rmult_1_r, Rmult_assoc by lra.
  apply Rmult_lt_compat_l; [assumption|]. assert (8061 / 1000 < rt 8); [|lra]. apply Rsqr_incrst_0; unfold Rsqr; lra.
Qed.
Lemma grad_large s u : 0 < s -> 512 <= Rabs u -> s * (399 / 400) < Rabs (s * u / rt u).
Proof.
  intros s0 H. pose proof (rt_ge1 u) as G. pose proof (rt_sq u) as Q.
  replace (Rabs (s * u / rt u)) with (s * (Rabs u / rt u)).
  2:{ unfold Rdiv. rewrite !Rabs_mult, Rabs_inv, (Rabs_right s), (Rabs_right (rt u)) by lra. ring. }
  apply Rmult_lt_compat_l; [assumption|]. apply (Rmult_lt_reg_r (rt u)); [lra|].
  replace (Rabs u / rt u * rt u) with (Rabs u) by (field; lra).
  assert (Q2 : rt u * rt u = 1 + Rabs u * Rabs u) by (rewrite Q, <- Rabs_mult, Rabs_right; [ring|apply Rle_ge, Rle_0_sqr]).
  apply Rsqr_incrst_0; unfold Rsqr; [|lra|lra].
  replace (399 / 400 * rt u * (399 / 400 * rt u)) with (399 / 400 * (399 / 400) * (rt u * rt u)) by ring. rewrite Q2. nra.
Qed.
Lemma cube_large u : 512 <= Rabs u -> 512 <= Rabs (- u ^ 3).
Proof.
  intros H. rewrite Rabs_Ropp, <- RPow_abs. cbn [pow]. 
  assert (1 <= Rabs u * (Rabs u * 1)) by nra. apply Rle_trans with (Rabs u * 1); [lra|]. apply Rmult_le_compat_l; lra.
Qed.
Lemma not_near98 s tol jb u y : 0 < s -> tol <= s * (399 / 400) -> 512 <= Rabs u -> ~ user_near (P98 s) tol jb [u; 0] [] [] [] [y] [] [] [].
Proof.
  intros s0 T H (_ & _ & N & _). specialize (N 0%nat ltac:(cbn; lia)). pose proof (grad_large s u s0 H) as G. revert N. cbn -[rt]. unfold at_. cbn -[rt]. unfold at_. cbn -[rt].
  intros [[A|[[A B]|[A B]]]|[_ [A|A]]]; try discriminate.
  revert A. match goal with |- Rabs ?v < _ -> _ => replace v with (s * u / rt u) end; [lra|]. ring.
Qed.
Lemma target98 f1 f2 f3 oAx oAp obc s M X : update_master f1 f2 f3 oAx oAp obc (P98 s) = Some M -> ctarget M X [] 0 = 0.
Proof. intros U. rewrite (Meq _ _ _ _ _ _ _ _ U). reflexivity. Qed.
