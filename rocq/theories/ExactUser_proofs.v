(** Proofs for C81: exactness of the user's functions carries over to the master problem. *)
From Coq Require Import List Arith Bool Reals Lra Lia.
From Verif Require Import Num Wrapper_model Wrapper_spec Wrapper_proofs Exact_spec.
Local Open Scope R_scope.

Section UserExact.
Variables (f1 f2 f3 : nat -> R) (oAx oAp obc : mat R) (P : problem R xreal) (M : master R xreal).
Let d := p_dims P.
Hypothesis U : update_master f1 f2 f3 oAx oAp obc P = Some M.
Variables (x p xbg xhg x' p' xbg' xhg' : list R).
Hypothesis Lx : length x = d_x d.
Hypothesis Lbg : length xbg = d_bg d.
Hypothesis Lhg : length xhg = d_hg d.
Hypothesis Lx' : length x' = d_x d.
Hypothesis Lbg' : length xbg' = d_bg d.
Hypothesis Lhg' : length xhg' = d_hg d.
Let X := x ++ xbg ++ xhg.
Let X' := x' ++ xbg' ++ xhg'.

(** Derivatives by the slack variables that are all zero predict nothing *)
Lemma predicted_user (A B A' B' : nat -> nat -> R) i i' :
  (forall j, (j < d_x d)%nat -> A i j = A' i' j) -> (forall j, (d_x d <= j < nxbar d)%nat -> A i j = 0) ->
  (forall k, (k < d_p d)%nat -> B i k = B' i' k) ->
  predicted (nxbar d) (d_p d) X p X' p' A B i = predicted (d_x d) (d_p d) x p x' p' A' B' i'.
Proof.
  intros HA HZ HB. unfold predicted. f_equal.
  - unfold nxbar in *. rewrite <- Nat.add_assoc, sum_split. rewrite (sum_zero (d_bg d + d_hg d)).
    + rewrite Rplus_0_r. apply sum_ext. intros j Hj. unfold X, X'. rewrite !(xbar_x P) by assumption. rewrite HA by exact Hj. reflexivity.
    + intros j Hj. rewrite HZ by lia. lra.
  - apply sum_ext. intros k Hk. rewrite HB by exact Hk. reflexivity.
Qed.

Lemma exact_master : user_exact P x p x' p' -> exact_linearisation M X p X' p'.
Proof.
  intros (F & (E1 & E2) & (G1 & G2) & V).
  assert (LX : length X = nxbar d) by (apply (Lbar P); assumption).
  assert (LX' : length X' = nxbar d) by (apply (Lbar P); assumption).
  assert (HX : head (d_x d) X = x) by (apply (Hbar P); assumption).
  assert (HX' : head (d_x d) X' = x') by (apply (Hbar P); assumption).
  unfold exact_linearisation. rewrite (Meq _ _ _ _ _ _ _ _ U). fold d. cbn [ms_nx ms_np ms_nz ms_f ms_h ms_v ms_c].
  split; [|split; [|split]].
  - intros j Hj. unfold ovalue, master_f, ocall. cbn [o_fx o_fxx o_fxp]. rewrite HX, HX'.
    destruct (Nat.ltb_spec j (d_x d)) as [L|L].
    + specialize (F j L). unfold ovalue, ocall in F. rewrite F. f_equal. symmetry. apply predicted_user.
      * intros k Hk. bsolve. reflexivity.
      * intros k Hk. bsolve. reflexivity.
      * intros k Hk. bsolve. reflexivity.
    + unfold predicted. rewrite !sum_zero; [cbn; lra| |]; intros k Hk; bsolve; cbn; lra.
  - intros l Hl. rewrite !master_h_val by assumption. rewrite HX, HX'.
    destruct (Nat.ltb_spec l (d_he d)) as [L|L].
    + rewrite (E1 l L). f_equal. symmetry. apply predicted_user.
      * intros j Hj. rewrite master_h_ddx by (try assumption; unfold nxbar; lia). bsolve. rewrite HX. reflexivity.
      * intros j Hj. rewrite master_h_ddx by (try assumption; lia). bsolve. reflexivity.
      * intros k Hk. rewrite master_h_ddp by assumption. bsolve. rewrite HX. reflexivity.
    + assert (L' : (l - d_he d < d_hg d)%nat) by (unfold nz in Hl; lia).
      rewrite (G1 _ L'). change nadd with Rplus.
      change (@nzero R Num_R) with 0. fold (at_ X' (d_x d + d_bg d + (l - d_he d))) (at_ X (d_x d + d_bg d + (l - d_he d))).
      assert (PR : predicted (nxbar d) (d_p d) X p X' p' (c_ddx (value (master_h d (uhe P) (uhg P)) X p (p_c P))) (c_ddp (value (master_h d (uhe P) (uhg P)) X p (p_c P))) l =
        predicted (d_x d) (d_p d) x p x' p' (c_ddx (value (uhg P) x p (p_c P))) (c_ddp (value (uhg P) x p (p_c P))) (l - d_he d)
        + (at_ X' (d_x d + d_bg d + (l - d_he d)) - at_ X (d_x d + d_bg d + (l - d_he d)))).
      { unfold predicted. unfold nxbar at 1. rewrite !sum_split. rewrite (sum_zero (d_bg d)).
        2:{ intros j Hj. rewrite master_h_ddx by (try assumption; unfold nxbar; lia). bsolve. cbn. lra. }
        rewrite (sum_delta (d_hg d) (l - d_he d)) by
          (try lia; intros j Hj Hne; rewrite master_h_ddx by (try assumption; unfold nxbar; lia); bsolve; cbn; lra).
        rewrite master_h_ddx by (try assumption; unfold nxbar; lia). bsolve. change (@none1 R Num_R) with 1.
        rewrite (sum_ext (d_x d) _ (fun j => c_ddx (value (uhg P) x p (p_c P)) (l - d_he d) j * (at_ x' j - at_ x j))).
        2:{ intros j Hj. rewrite master_h_ddx by (try assumption; unfold nxbar; lia). bsolve. rewrite HX.
            unfold X, X'. rewrite !(xbar_x P) by assumption. reflexivity. }
        rewrite (sum_ext (d_p d) _ (fun k => c_ddp (value (uhg P) x p (p_c P)) (l - d_he d) k * (at_ p' k - at_ p k))).
        2:{ intros k Hk. rewrite master_h_ddp by assumption. bsolve. rewrite HX. reflexivity. }
        lra. }
      rewrite PR. fold d. lra.
  - intros k Hk. rewrite !master_v_val by assumption. rewrite HX, HX'. rewrite (V k Hk). f_equal. symmetry. apply predicted_user.
    + intros j Hj. rewrite master_v_ddx by (try assumption; unfold nxbar; lia). bsolve. rewrite HX. reflexivity.
    + intros j Hj. rewrite master_v_ddx by (try assumption; lia). bsolve. reflexivity.
    + intros j Hj. destruct (master_v_rest d X p (p_c P) LX (uv P) k j Hk) as (-> & _). rewrite HX. reflexivity.
  - intros l j Hl Hj. rewrite !master_h_ddx by assumption. rewrite HX, HX'.
    destruct (Nat.ltb_spec j (d_x d)) as [L|L]; [|reflexivity].
    destruct (Nat.ltb_spec l (d_he d)) as [L'|L']; [apply E2; assumption|].
    apply G2; fold d; [unfold nz in Hl; lia|exact L].
Qed.
End UserExact.
