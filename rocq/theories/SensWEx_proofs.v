(** Two small problems for C86: their solution paths and derivatives. *)
From Coq Require Import List Arith Bool Reals Lra Lia.
From Coquelicot Require Import Coquelicot.
From Verif Require Import Num Wrapper_model Wrapper_spec Wrapper_proofs P_Wrapper Status_spec End_spec SensW_spec.
Import ListNotations.
Local Open Scope R_scope.

(** min (x0^2 + x1^2)/2 + x2 subject to x0 + x1 = c, x2 >= 0, at c = 0 *)
Definition f86 : ofun R := fun x p c r =>
  ORes ((at_ x 0 * at_ x 0 + at_ x 1 * at_ x 1) / 2 + at_ x 2) (fun j => if j <? 2 then at_ x j else 1)
    (fun i j => if (i =? j) && (i <? 2) then 1 else 0) (o_fxp r) (o_fxc r) true false true.
Definition P86 : problem R xreal := Problem (Dims 3 0 1 0 0 0 1) None (Some f86) (Some cfn0) (Some cfn0) (Some cfn0)
  (fun i j => if j <? 2 then 1 else 0) mzeros mzeros mzeros [0] [] [XNInf; XNInf; XF 0] [XPInf; XPInf; XPInf] [] [] [0] (fun _ _ => 1) mzeros.
Definition a86 : upoint := UPoint [0; 0; 0] [] [] [] [0] [] [] [].
Definition path86 (s : R) : upoint := UPoint [s / 2; s / 2; 0] [] [] [] [- s / 2] [] [] [].
Definition t86 : udir := UDir (fun i => if i <? 2 then / 2 else 0) (fun _ => 0) (fun _ => 0) (fun _ => 0) (fun _ => - / 2) (fun _ => 0) (fun _ => 0) (fun _ => 0).

Lemma held86 j : (j < 3)%nat -> (held P86 a86 j <-> j = 2%nat).
Proof.
  intros Hj. unfold held, user_stability. destruct j as [|[|[|j]]]; [| | |lia]; cbn; split; try discriminate.
  - intros [[H _]|[H _]]; discriminate.
  - intros [[H _]|[H _]]; discriminate.
  - intros _. reflexivity.
  - intros _. left. split; [reflexivity|]. lra.
Qed.
Lemma licq86 : licq P86 [0; 0; 0] [] [] [].
Proof.
  intros a b c e _ _ H. split; [|split; [|split]]; intros i Hi; cbn in Hi; try lia.
  assert (i = 0%nat) as -> by lia. specialize (H 0%nat). cbn in H. rewrite <- H; [lra|lia|].
  unfold at_bound, bd, at_. cbn. intros [E|E]; discriminate.
Qed.
Lemma unique86 : unique_tangent P86 a86.
Proof.
  intros t (T1 & T2 & T3 & T4 & T5 & T6 & T7 & T8 & T9). cbn in T1, T2, T4.
  assert (X2 : dx t 2 = 0) by (apply T1; [lia|]; apply held86; lia).
  assert (X0 := T2 0%nat ltac:(lia)). assert (X1 := T2 1%nat ltac:(lia)). rewrite held86 in X0, X1 by lia.
  specialize (X0 ltac:(discriminate)). specialize (X1 ltac:(discriminate)). specialize (T4 0%nat ltac:(lia)). cbn in X0, X1, T4.
  unfold same_dir, zero_dir. cbn. repeat match goal with |- _ /\ _ => split end; intros i Hi; try lia.
  - destruct i as [|[|[|i]]]; [lra|lra|lra|lia].
  - assert (i = 0%nat) as -> by lia. lra.
Qed.
Lemma right86 : right_derivatives P86 0 a86.
Proof.
  unfold right_derivatives. cbn [P86 p_dims d_x d_p d_he d_hg]. repeat match goal with |- _ /\ _ => split end; intros j Hj; try lia.
  intros x p vx vp Ex Ep Lx Lp Mx Mp. cbn [P86 p_dims d_x d_p] in *.
  destruct j as [|[|[|j]]]; [| | |lia]; cbn.
  - replace (_ + _ + _) with (vx 0%nat) by ring. exact (Mx 0%nat ltac:(lia)).
  - replace (_ + _ + _) with (vx 1%nat) by ring. exact (Mx 1%nat ltac:(lia)).
  - replace (_ + _ + _) with 0 by ring. apply (is_derive_const 1 0).
Qed.
Lemma steady86 : steady_jacobians P86 0 a86.
Proof. split; intros i j Hi; cbn in Hi; lia. Qed.
Lemma path86_ok : solution_path P86 0 a86 path86 (fun s => [s]) (fun _ => []) t86.
Proof.
  unfold solution_path, moves. cbn [P86 p_dims d_x d_p d_be d_bg d_he d_hg p_be p_bg p_bec p_bgc].
  repeat match goal with |- _ /\ _ => split end; try (intros i Hi; exfalso; lia).
  - unfold path86, a86. repeat f_equal; lra.
  - reflexivity.
  - reflexivity.
  - reflexivity.
  - reflexivity.
  - intros i Hi. assert (i = 0%nat) as -> by lia. cbn. apply (is_derive_id 0).
  - apply filter_forall. intros s. unfold as_solved. cbn [P86 p_dims d_x d_p d_be d_bg d_he d_hg].
    repeat match goal with |- _ /\ _ => split end; intros j Hj; try (exfalso; lia).
    + intros ->%held86; [|exact Hj]. reflexivity.
    + intros NH. unfold user_stability. destruct j as [|[|[|j]]]; [| |exfalso; apply NH; apply held86; [lia|reflexivity]|lia];
        unfold ovalue, ocall, f86, uf, oget, problem_at, P86, path86, a86, at_; cbn; lra.
    + assert (j = 0%nat) as -> by lia. unfold lin, path86, a86, problem_at, P86, at_. cbn. lra.
  - intros i Hi. destruct i as [|[|[|i]]]; [| | |lia]; cbn; auto_derive; try exact I; lra.
  - intros i Hi. assert (i = 0%nat) as -> by lia. cbn. auto_derive; [exact I|lra].
Qed.

(** min x1 + x0^2/2 - c x0 subject to x1 = x0^2, at c = 0 *)
Definition f86n : ofun R := fun x p c r =>
  ORes (at_ x 1 + at_ x 0 * at_ x 0 / 2 - at_ c 0 * at_ x 0) (fun j => if j =? 0 then at_ x 0 - at_ c 0 else 1)
    (fun i j => if (i =? 0) && (j =? 0) then 1 else 0) (o_fxp r) (fun i k => if i =? 0 then -1 else 0) true false true.
Definition he86n : cfun R := fun x p c r =>
  CRes (fun _ => at_ x 1 - at_ x 0 * at_ x 0) (fun _ j => if j =? 0 then - 2 * at_ x 0 else 1) (c_ddp r) (c_ddc r) false true.
Definition P86n : problem R xreal := Problem (Dims 2 0 0 0 1 0 1) None (Some f86n) (Some he86n) (Some cfn0) (Some cfn0)
  mzeros mzeros mzeros mzeros [] [] [XNInf; XNInf] [XPInf; XPInf] [] [] [0] mzeros mzeros.
Definition a86n : upoint := UPoint [0; 0] [] [] [] [] [] [-1] [].
Definition path86n (s : R) : upoint := UPoint [s / 3; s / 3 * (s / 3)] [] [] [] [] [] [-1] [].
Definition t86n : udir := UDir (fun i => if i =? 0 then / 3 else 0) (fun _ => 0) (fun _ => 0) (fun _ => 0) (fun _ => 0) (fun _ => 0) (fun _ => 0) (fun _ => 0).

Lemma free86n a j : ~ held P86n a j.
Proof.
  unfold held, user_stability. intros [[H _]|[H _]]; destruct j as [|[|[|j]]]; discriminate H.
Qed.
Lemma licq86n : licq P86n [0; 0] [] [] [].
Proof.
  intros a b c e _ _ H. split; [|split; [|split]]; intros i Hi; cbn in Hi; try lia.
  assert (i = 0%nat) as -> by lia. specialize (H 1%nat). cbn in H. rewrite <- H; [lra|lia|].
  unfold at_bound, bd, at_. cbn. intros [E|E]; discriminate.
Qed.
Lemma unique86n : unique_tangent P86n a86n.
Proof.
  intros t (T1 & T2 & T3 & T4 & T5 & T6 & T7 & T8 & T9). cbn in T2, T6.
  assert (X0 := T2 0%nat ltac:(lia) (free86n _ _)). assert (X1 := T2 1%nat ltac:(lia) (free86n _ _)). specialize (T6 0%nat ltac:(lia)).
  unfold at_ in X0, X1, T6. cbn in X0, X1, T6.
  unfold same_dir, zero_dir. cbn. repeat match goal with |- _ /\ _ => split end; intros i Hi; try lia.
  - destruct i as [|[|i]]; [lra|lra|lia].
  - assert (i = 0%nat) as -> by lia. lra.
Qed.
Lemma sens86n S : c_tangent P86n a86n 0 (sens_dir S 0) -> ent (e_xc S) 0 0 = 1.
Proof.
  intros (T1 & T2 & T3 & T4 & T5 & T6 & T7 & T8 & T9). cbn in T2, T6.
  assert (X0 := T2 0%nat ltac:(lia) (free86n _ _)). assert (X1 := T2 1%nat ltac:(lia) (free86n _ _)). specialize (T6 0%nat ltac:(lia)).
  unfold at_ in X0, X1, T6. cbn in X0, X1, T6. lra.
Qed.
Lemma right86n : right_derivatives P86n 0 a86n.
Proof.
  unfold right_derivatives. cbn [P86n p_dims d_x d_p d_he d_hg]. repeat match goal with |- _ /\ _ => split end; intros j Hj; try lia.
  - intros x p vx vp Ex Ep Lx Lp Mx Mp. cbn [P86n p_dims d_x d_p] in *.
    destruct j as [|[|j]]; [| |lia]; cbn.
    + replace (_ + _ + _) with (vx 0%nat - 1) by ring.
      apply (is_derive_ext (fun t => at_ (x t) 0 - t)); [intros t; unfold shifted, at_; cbn; lra|].
      apply (is_derive_minus (fun t => at_ (x t) 0) (fun t => t)); [exact (Mx 0%nat ltac:(lia))|apply (is_derive_id 0)].
    + replace (_ + _ + _) with 0 by ring. apply (is_derive_const 1 0).
  - intros x p vx vp Ex Ep Lx Lp Mx Mp. cbn [P86n p_dims d_x d_p] in *. cbn. rewrite <- (Rplus_0_r (vx 1%nat)).
    replace (_ + _ + _) with (vx 1%nat - (vx 0%nat * at_ (x 0) 0 + at_ (x 0) 0 * vx 0%nat)) by (rewrite Ex; cbn; unfold at_; cbn; ring).
    assert (M0 := Mx 0%nat ltac:(lia)).
    apply (is_derive_minus (fun t => at_ (x t) 1) (fun t => at_ (x t) 0 * at_ (x t) 0)); [exact (Mx 1%nat ltac:(lia))|].
    apply (is_derive_mult (fun t => at_ (x t) 0) (fun t => at_ (x t) 0)); [exact M0|exact M0|intros; apply Rmult_comm].
Qed.
Lemma path86n_ok : solution_path P86n 0 a86n path86n (fun _ => []) (fun _ => []) t86n.
Proof.
  unfold solution_path, moves. cbn [P86n p_dims d_x d_p d_be d_bg d_he d_hg p_be p_bg p_bec p_bgc].
  repeat match goal with |- _ /\ _ => split end; try (intros i Hi; exfalso; lia).
  - unfold path86n, a86n. repeat f_equal; lra.
  - reflexivity.
  - reflexivity.
  - reflexivity.
  - reflexivity.
  - apply filter_forall. intros s. unfold as_solved. cbn [P86n p_dims d_x d_p d_be d_bg d_he d_hg].
    repeat match goal with |- _ /\ _ => split end; intros j Hj; try (exfalso; lia).
    + intros []%free86n.
    + intros _. unfold user_stability. destruct j as [|[|j]]; [| |lia];
        unfold ovalue, ocall, f86n, uf, oget, value, ccall, he86n, problem_at, P86n, path86n, a86n, shifted, at_; cbn; lra.
    + assert (j = 0%nat) as -> by lia. unfold at_he, value, ccall, he86n, problem_at, P86n, path86n, a86n, at_; cbn; lra.
  - intros i Hi. destruct i as [|[|i]]; [| |lia]; cbn; auto_derive; try exact I; lra.
  - intros i Hi. assert (i = 0%nat) as -> by lia. cbn. apply (is_derive_const (-1) 0).
Qed.
(** the points of the path are the minima *)
Lemma path86n_min s x : c_val (value (uhe P86n) x [] [s]) 0 = 0 -> o_f (ovalue (uf P86n) (ptx (path86n s)) [] [s]) <= o_f (ovalue (uf P86n) x [] [s]).
Proof.
  unfold ovalue, ocall, f86n, uf, oget, value, ccall, he86n, P86n, path86n, uhe. cbn [p_f p_he cget c_val o_f ptx]. unfold f86n, he86n. cbn [c_val o_f].
  assert (E : at_ [s] 0 = s /\ at_ [s / 3; s / 3 * (s / 3)] 0 = s / 3 /\ at_ [s / 3; s / 3 * (s / 3)] 1 = s / 3 * (s / 3)) by (repeat split).
  destruct E as (-> & -> & ->). intros H. set (u := at_ x 0) in *. set (v := at_ x 1) in *.
  assert (0 <= (u - s / 3) * (u - s / 3)) by apply Rle_0_sqr. nra.
Qed.

(** The starting points are solutions. *)
Lemma xle a b : a <= b -> xleb (XF a) (XF b) = true.
Proof. intros H. cbn. unfold rleb. destruct (Rle_dec a b); [reflexivity|contradiction]. Qed.
Lemma kkt86 : user_kkt P86 (ptx a86) (ptp a86) (ptye a86) (ptyg a86) (ptze a86) (ptzg a86).
Proof.
  unfold user_kkt, user_feasible. cbn [P86 p_dims d_x d_p d_be d_bg d_he d_hg].
  repeat match goal with |- _ /\ _ => split end; intros i Hi; try (cbn in Hi; exfalso; lia).
  - assert (i = 0%nat) as -> by lia. unfold lin, at_. cbn. lra.
  - unfold at_, bd. cbn. cbn in Hi. destruct i as [|[|[|i]]]; [| | |lia]; (split; [|try reflexivity]; cbn; try reflexivity); apply (xle 0 0); lra.
  - unfold at_, bd. destruct i as [|[|[|i]]]; [| | |lia]; cbn.
    + left. lra.
    + left. lra.
    + right. left. split; [reflexivity|lra].
Qed.
Lemma kkt86n : user_kkt P86n (ptx a86n) (ptp a86n) (ptye a86n) (ptyg a86n) (ptze a86n) (ptzg a86n).
Proof.
  unfold user_kkt, user_feasible. cbn [P86n p_dims d_x d_p d_be d_bg d_he d_hg].
  repeat match goal with |- _ /\ _ => split end; intros i Hi; try (cbn in Hi; exfalso; lia).
  - assert (i = 0%nat) as -> by lia. unfold at_. cbn. lra.
  - unfold at_, bd. cbn. cbn in Hi. destruct i as [|[|i]]; [| |lia]; (split; reflexivity).
  - unfold at_, bd. destruct i as [|[|i]]; [| |lia]; cbn; left; unfold at_; cbn; lra.
Qed.
