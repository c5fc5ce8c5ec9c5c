(** The problems of C85_weak_refuted: min a (x0 - 1)^4/4 + x1^2/2 subject to x0 + e x1 = 2 and x0 <= 2. *)
From Coq Require Import List Arith Bool Reals Lra Lia Psatz.
From Verif Require Import Num Num_facts Wrapper_model Wrapper_spec Wrapper_proofs P_Wrapper Status_spec End_spec SensW_spec SensWEx_proofs Exact_spec Convex_spec Convex_proofs.
Import ListNotations.
Local Open Scope R_scope.

Definition f85w (a : R) : ofun R := fun x p c r =>
  ORes (a * (at_ x 0 - 1) ^ 4 / 4 + (at_ x 1) ^ 2 / 2) (fun j => if j =? 0 then a * (at_ x 0 - 1) ^ 3 else at_ x 1)
    (fun i j => if i =? j then (if i =? 0 then 3 * a * (at_ x 0 - 1) ^ 2 else 1) else 0) (o_fxp r) (o_fxc r) true false true.
Definition P85w (a e : R) : problem R xreal := Problem (Dims 2 0 1 0 0 0 0) None (Some (f85w a)) (Some cfn0) (Some cfn0) (Some cfn0)
  (fun i j => if j =? 0 then 1 else e) mzeros mzeros mzeros [2] [] [XNInf; XNInf] [XF 2; XPInf] [] [] [] mzeros mzeros.

Lemma inside85w a e u v : u <= 2 -> within (p_xlower (P85w a e)) (p_xupper (P85w a e)) [u; v].
Proof.
  intros A i Hi. cbn in Hi. destruct i as [|[|i]]; [| |lia]; unfold bd, at_; cbn; (split; [reflexivity|]); [apply xle; lra|reflexivity].
Qed.
Lemma feasible85w a e u v : u <= 2 -> u + e * v = 2 -> feasible_for (P85w a e) [] [u; v].
Proof.
  intros A E. unfold feasible_for. cbn [P85w p_dims d_x d_p d_be d_bg d_he d_hg].
  repeat match goal with |- _ /\ _ => split end; try (intros i Hi; exfalso; lia); [|apply (inside85w a e); assumption].
  intros i Hi. assert (i = 0%nat) as -> by lia. unfold lin, at_. cbn. unfold at_. cbn. lra.
Qed.
Lemma objective85w a e u v : objective (P85w a e) [u; v] [] = a * (u - 1) ^ 4 / 4 + v ^ 2 / 2.
Proof. reflexivity. Qed.
Lemma sqr_chord u v t : 0 <= t <= 1 -> (u + t * (v - u)) ^ 2 <= u ^ 2 + t * (v ^ 2 - u ^ 2).
Proof.
  intros T. assert (0 <= t * (1 - t) * (v - u) ^ 2); [|nra].
  apply Rmult_le_pos; [apply Rmult_le_pos; lra|apply pow2_ge_0].
Qed.
Lemma quartic_chord u v t : 0 <= t <= 1 -> (u + t * (v - u)) ^ 4 <= u ^ 4 + t * (v ^ 4 - u ^ 4).
Proof.
  intros T. replace ((u + t * (v - u)) ^ 4) with (((u + t * (v - u)) ^ 2) ^ 2) by ring.
  apply Rle_trans with ((u ^ 2 + t * (v ^ 2 - u ^ 2)) ^ 2).
  - apply pow_incr. split; [apply pow2_ge_0 | apply sqr_chord; exact T].
  - replace (u ^ 4) with ((u ^ 2) ^ 2) by ring. replace (v ^ 4) with ((v ^ 2) ^ 2) by ring. apply sqr_chord; exact T.
Qed.
Lemma convex85w a e : 0 < a -> convex_problem (P85w a e) 0 [].
Proof.
  intros a0 x y Lx Ly _ _. cbn in Lx, Ly. destruct x as [|u [|v [|]]]; try discriminate Lx. destruct y as [|u' [|v' [|]]]; try discriminate Ly.
  split; [split|split; intros i Hi; cbn in Hi; exfalso; lia].
  - intros t Ht. unfold along, distance2, at_. cbn -[pow]. unfold at_. cbn [nth].
    pose proof (quartic_chord (u - 1) (u' - 1) t ltac:(lra)) as Q. pose proof (sqr_chord v v' t ltac:(lra)) as S.
    replace (u + t * (u' - u) - 1) with (u - 1 + t * (u' - 1 - (u - 1))) by ring.
    apply (Rmult_le_compat_l (a / 4)) in Q; lra.
  - intros eps e0. unfold along, slope, at_. cbn -[pow]. unfold at_. cbn [nth].
    set (g := u - 1). set (d := u' - u).
    set (K := a / 4 * (6 * (g ^ 2 * d ^ 2) + 4 * Rabs (g * d ^ 3) + d ^ 4) + (v' - v) ^ 2 / 2).
    assert (D4 : 0 <= d ^ 4) by (replace (d ^ 4) with ((d ^ 2) ^ 2) by ring; apply pow2_ge_0).
    assert (G2 : 0 <= g ^ 2 * d ^ 2) by (apply Rmult_le_pos; apply pow2_ge_0).
    assert (V2 := pow2_ge_0 (v' - v)). assert (A3 := Rabs_pos (g * d ^ 3)).
    assert (K0 : 0 <= K). { unfold K. assert (0 <= a / 4 * (6 * (g ^ 2 * d ^ 2) + 4 * Rabs (g * d ^ 3) + d ^ 4)) by (apply Rmult_le_pos; lra). lra. }
    exists (Rmin 1 (eps / (K + 1))). split; [apply Rmin_pos; [lra|apply Rdiv_lt_0_compat; lra]|]. intros t [t0 t1].
    assert (T1 : t < 1) by (eapply Rlt_le_trans; [exact t1|apply Rmin_l]).
    assert (TE : t * (K + 1) < eps).
    { assert (t < eps / (K + 1)) by (eapply Rlt_le_trans; [exact t1|apply Rmin_r]).
      replace eps with (eps / (K + 1) * (K + 1)) by (field; lra). apply Rmult_lt_compat_r; lra. }
    match goal with |- Rabs ?w <= _ => replace w with (t * (t * (a / 4 * (6 * (g ^ 2 * d ^ 2) + 4 * (t * (g * d ^ 3)) + t ^ 2 * d ^ 4) + (v' - v) ^ 2 / 2))) by (unfold g, d; field) end.
    rewrite Rabs_mult, (Rabs_right t) by lra. rewrite (Rmult_comm eps). apply Rmult_le_compat_l; [lra|].
    rewrite Rabs_mult, (Rabs_right t) by lra.
    apply Rle_trans with (t * K); [|nra]. apply Rmult_le_compat_l; [lra|]. unfold K.
    eapply Rle_trans; [apply Rabs_triang|]. rewrite (Rabs_right ((v' - v) ^ 2 / 2)) by lra. apply Rplus_le_compat_r.
    rewrite Rabs_mult, (Rabs_right (a / 4)) by lra. apply Rmult_le_compat_l; [lra|].
    eapply Rle_trans; [apply Rabs_triang|]. assert (T2 : 0 <= t ^ 2 <= 1) by (split; [apply pow2_ge_0|nra]).
    rewrite (Rabs_right (t ^ 2 * d ^ 4)) by (apply Rle_ge, Rmult_le_pos; lra).
    eapply Rle_trans; [apply Rplus_le_compat_r, Rabs_triang|]. rewrite (Rabs_right (6 * (g ^ 2 * d ^ 2))) by lra.
    rewrite (Rabs_mult 4), (Rabs_right 4), (Rabs_mult t), (Rabs_right t) by lra.
    assert (t * Rabs (g * d ^ 3) <= 1 * Rabs (g * d ^ 3)) by (apply Rmult_le_compat_r; lra).
    assert (t ^ 2 * d ^ 4 <= 1 * d ^ 4) by (apply Rmult_le_compat_r; lra). lra.
Qed.
Lemma licq85w a e v : e <> 0 -> licq (P85w a e) [2; v] [] [] [].
Proof.
  intros E0 a1 b1 c1 e1 _ _ H. cbn [P85w p_dims d_x d_p d_be d_bg d_he d_hg] in *.
  repeat match goal with |- _ /\ _ => split end; intros i Hi; try (exfalso; lia).
  assert (i = 0%nat) as -> by lia. specialize (H 1%nat ltac:(lia)). cbn in H.
  assert (Z : a1 0%nat * e = 0). { rewrite <- H; [lra|]. unfold at_bound, bd, at_. cbn. intros [E|E]; discriminate. }
  apply Rmult_integral in Z. destruct Z; [assumption|contradiction].
Qed.
Lemma licq85w_off a e u v : u <> 2 -> licq (P85w a e) [u; v] [] [] [].
Proof.
  intros E0 a1 b1 c1 e1 _ _ H. cbn [P85w p_dims d_x d_p d_be d_bg d_he d_hg] in *.
  repeat match goal with |- _ /\ _ => split end; intros i Hi; try (exfalso; lia).
  assert (i = 0%nat) as -> by lia. specialize (H 0%nat ltac:(lia)). cbn in H.
  rewrite <- H; [lra|]. unfold at_bound, bd, at_. cbn. intros [E|E]; [discriminate|]. injection E. intros. lra.
Qed.
(** x0 is on its upper bound and the Lagrange function grows with it: not a KKT point, by any tolerance up to a *)
Lemma not_near85w a e tol jb : 0 < a -> tol <= a -> ~ In 0%nat jb -> ~ user_near (P85w a e) tol jb [2; 0] [] [] [] [0] [] [] [].
Proof.
  intros A T J (_ & _ & H & _). specialize (H 0%nat ltac:(cbn; lia)). destruct H as [H|[H _]]; [|contradiction].
  unfold near_stationary, bd, at_ in H. cbn in H. unfold at_ in H. cbn in H.
  replace (a * ((2 - 1) * ((2 - 1) * ((2 - 1) * 1))) + (0 + 1 * 0) + 0 + 0 + 0) with a in H by ring.
  destruct H as [H|[[H _]|[_ H]]]; [|discriminate|lra]. rewrite Rabs_right in H by lra. lra.
Qed.
Lemma Ax85w f1 f2 f3 oAx oAp obc a e M j : update_master f1 f2 f3 oAx oAp obc (P85w a e) = Some M -> (j < 2)%nat -> mget (ms_Ax M) 0 j = if j =? 0 then 1 else e.
Proof.
  intros U Hj. rewrite (Meq _ _ _ _ _ _ _ _ U). cbn [ms_Ax]. unfold master_Ax, mresize.
  destruct (_ =? m_rows oAx * m_cols oAx); destruct j as [|[|j]]; try lia; reflexivity.
Qed.
Lemma target85w f1 f2 f3 oAx oAp obc a e M X : update_master f1 f2 f3 oAx oAp obc (P85w a e) = Some M -> ctarget M X [] 0 = 2.
Proof. intros U. rewrite (Meq _ _ _ _ _ _ _ _ U). reflexivity. Qed.
