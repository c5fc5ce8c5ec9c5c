(** The problem of C92_cycle_refuted: min ((x0 - x1 - x2)^2 + (x1 + x2)^2 + x2^2 + x3^2)/2 + 4 x0 - 4 x1 - x2 subject to
    x3 = 0 and x0, x1, x2 >= 0. *)
From Coq Require Import List Arith Bool Reals Lra Lia Psatz.
From Verif Require Import Num Num_facts Loop_model Loop_spec Loop_proofs Backtrack_proofs Stay_proofs Cycle_proofs Wrapper_model Wrapper_spec Wrapper_proofs P_Wrapper Status_spec End_spec SensW_spec SensWEx_proofs Exact_spec Convex_spec Convex_proofs.
Import ListNotations.
Local Open Scope R_scope.

Definition H92 : list (list R) := [[1; -1; -1; 0]; [-1; 2; 2; 0]; [-1; 2; 3; 0]; [0; 0; 0; 1]].
Definition g92 (x : list R) : list R :=
  [at_ x 0 - at_ x 1 - at_ x 2 + 4; 2 * (at_ x 1 + at_ x 2) - at_ x 0 - 4; 2 * (at_ x 1 + at_ x 2) - at_ x 0 + at_ x 2 - 1; at_ x 3].
Definition f92 : ofun R := fun x p c r =>
  ORes (((at_ x 0 - at_ x 1 - at_ x 2) ^ 2 + (at_ x 1 + at_ x 2) ^ 2 + (at_ x 2) ^ 2 + (at_ x 3) ^ 2) / 2 + 4 * at_ x 0 - 4 * at_ x 1 - at_ x 2)
    (fun j => nth j (g92 x) 0) (fun i j => nth j (nth i H92 []) 0) (o_fxp r) (o_fxc r) true false true.
Definition P92 : problem R xreal := Problem (Dims 4 0 1 0 0 0 0) None (Some f92) (Some cfn0) (Some cfn0) (Some cfn0)
  (fun i j => if j =? 3 then 1 else 0) mzeros mzeros mzeros [0] [] [XF 0; XF 0; XF 0; XNInf] [XPInf; XPInf; XPInf; XPInf] [] [] [] mzeros mzeros.

Lemma within92 x : within (p_xlower P92) (p_xupper P92) x -> length x = 4%nat -> exists a b c e, x = [a; b; c; e] /\ 0 <= a /\ 0 <= b /\ 0 <= c.
Proof.
  intros W L. destruct x as [|a [|b [|c [|e [|]]]]]; try discriminate L. exists a, b, c, e. split; [reflexivity|].
  pose proof (proj1 (W 0%nat ltac:(simpl; lia))) as W0. pose proof (proj1 (W 1%nat ltac:(simpl; lia))) as W1. pose proof (proj1 (W 2%nat ltac:(simpl; lia))) as W2.
  cbn in W0, W1, W2. unfold rleb, at_ in W0, W1, W2. cbn in W0, W1, W2. do 3 destruct Rle_dec; try discriminate. lra.
Qed.
Lemma inside92 a b c e : 0 <= a -> 0 <= b -> 0 <= c -> within (p_xlower P92) (p_xupper P92) [a; b; c; e].
Proof.
  intros A B C i Hi. cbn in Hi. destruct i as [|[|[|[|i]]]]; [| | | |lia]; unfold bd, at_; cbn; (split; [|reflexivity]); try (apply xle; lra). reflexivity.
Qed.
Lemma feasible92 a b c e : feasible_for P92 [] [a; b; c; e] <-> 0 <= a /\ 0 <= b /\ 0 <= c /\ e = 0.
Proof.
  split.
  - intros (F1 & _ & _ & _ & W). destruct (within92 _ W eq_refl) as (a' & b' & c' & e' & E & A & B & C). injection E as -> -> -> ->.
    specialize (F1 0%nat ltac:(cbn; lia)). unfold lin, at_ in F1. cbn in F1. unfold at_ in F1. cbn in F1. lra.
  - intros (A & B & C & E). unfold feasible_for. cbn [P92 p_dims d_x d_p d_be d_bg d_he d_hg].
    repeat match goal with |- _ /\ _ => split end; try (intros i Hi; exfalso; lia); [|apply inside92; assumption].
    intros i Hi. assert (i = 0%nat) as -> by lia. unfold lin, at_. cbn. unfold at_. cbn. lra.
Qed.
(** the quadratic form of the Hessian matrix *)
Definition form92 (a b c e : R) : R := (a - b - c) ^ 2 + (b + c) ^ 2 + c ^ 2 + e ^ 2.
Lemma form92_pos a b c e : a ^ 2 + b ^ 2 + c ^ 2 + e ^ 2 <= 4 * form92 a b c e.
Proof.
  unfold form92. set (u := a - b - c). set (v := b + c).
  replace a with (u + v) by (unfold u, v; ring). replace b with (v - c) by (unfold v; ring).
  pose proof (pow2_ge_0 (u - v)). pose proof (pow2_ge_0 (v + c)). pose proof (pow2_ge_0 u). pose proof (pow2_ge_0 v). pose proof (pow2_ge_0 c). pose proof (pow2_ge_0 e). nra.
Qed.
Lemma objective92 a b c e : objective P92 [a; b; c; e] [] = form92 a b c e / 2 + 4 * a - 4 * b - c.
Proof. reflexivity. Qed.
Lemma convex92 : convex_problem P92 (/ 4) [].
Proof.
  intros x y Lx Ly WX WY. destruct (within92 _ WX Lx) as (a & b & c & e & -> & _). destruct (within92 _ WY Ly) as (a' & b' & c' & e' & -> & _).
  pose proof (form92_pos (a' - a) (b' - b) (c' - c) (e' - e)) as FP.
  split; [split|split; intros i Hi; cbn in Hi; exfalso; lia].
  - intros t Ht. unfold along, distance2, at_. cbn -[pow]. unfold at_. cbn -[pow].
    set (D := form92 (a' - a) (b' - b) (c' - c) (e' - e)) in *.
    match goal with |- ?l + _ <= ?r => replace r with (l + t * (1 - t) * (D / 2)) by (unfold D, form92; field) end.
    assert (0 <= t * (1 - t)) by (apply Rmult_le_pos; lra).
    apply Rplus_le_compat_l.
    match goal with |- _ * _ * ?s <= _ => assert (s <= 4 * D) by lra end.
    apply Rle_trans with (/ 4 / 2 * (t * (1 - t)) * (4 * D)); [apply Rmult_le_compat_l; [lra|assumption]|lra].
  - intros eps e0. unfold along, slope, at_. cbn -[pow]. unfold at_. cbn -[pow].
    set (D := form92 (a' - a) (b' - b) (c' - c) (e' - e)) in *.
    assert (D0 : 0 <= D). { pose proof (pow2_ge_0 (a' - a)); pose proof (pow2_ge_0 (b' - b)); pose proof (pow2_ge_0 (c' - c)); pose proof (pow2_ge_0 (e' - e)); lra. }
    exists (eps / (D + 1)). split; [apply Rdiv_lt_0_compat; lra|]. intros t [t0 t1].
    match goal with |- Rabs ?v <= _ => replace v with (D * (t * t / 2)) by (unfold D, form92; field) end.
    assert (t * (D + 1) <= eps).
    { apply Rlt_le. replace eps with (eps / (D + 1) * (D + 1)) by (field; lra). apply Rmult_lt_compat_r; lra. }
    assert (T2 : 0 <= t * t) by apply Rle_0_sqr.
    rewrite Rabs_right by (apply Rle_ge, Rmult_le_pos; lra).
    assert (t * (t * (D + 1)) <= t * eps) by (apply Rmult_le_compat_l; lra).
    assert (0 <= D * (t * t)) by (apply Rmult_le_pos; lra). lra.
Qed.
(** (0, 2, 0, 0) is the minimiser *)
Lemma minimum92 a b c e : feasible_for P92 [] [a; b; c; e] ->
  objective P92 [0; 2; 0; 0] [] + form92 a (b - 2) c e / 2 + 2 * a + 3 * c = objective P92 [a; b; c; e] [].
Proof. intros (_ & _ & _ & ->)%feasible92. rewrite !objective92. unfold form92. field. Qed.
Lemma minimises92 : minimises P92 [] [0; 2; 0; 0] /\ forall x, length x = 4%nat -> minimises P92 [] x -> x = [0; 2; 0; 0].
Proof.
  assert (F : feasible_for P92 [] [0; 2; 0; 0]) by (apply feasible92; lra).
  split; [split; [exact F|]|].
  - intros y Ly FY. destruct y as [|a [|b [|c [|e [|]]]]]; try discriminate Ly. rewrite <- (minimum92 _ _ _ _ FY).
    apply feasible92 in FY. pose proof (form92_pos a (b - 2) c e). pose proof (pow2_ge_0 a). pose proof (pow2_ge_0 (b - 2)). pose proof (pow2_ge_0 c). pose proof (pow2_ge_0 e). lra.
  - intros x Lx [FX M]. destruct x as [|a [|b [|c [|e [|]]]]]; try discriminate Lx.
    specialize (M [0; 2; 0; 0] eq_refl F). rewrite <- (minimum92 _ _ _ _ FX) in M. apply feasible92 in FX. destruct FX as (A & B & C & E).
    pose proof (form92_pos a (b - 2) c e). pose proof (pow2_ge_0 a). pose proof (pow2_ge_0 (b - 2)). pose proof (pow2_ge_0 c). pose proof (pow2_ge_0 e).
    assert (Z : forall t, t ^ 2 <= 0 -> t = 0). { intros t Ht. destruct (Req_dec t 0) as [Q|Q]; [exact Q|]. pose proof (Rsqr_pos_lt _ Q). rewrite Rsqr_pow2 in *. lra. }
    assert (a = 0) by (apply Z; lra). assert (b - 2 = 0) by (apply Z; lra). assert (c = 0) by (apply Z; lra).
    subst. f_equal. f_equal. lra.
Qed.
Lemma licq92 a b c e : licq P92 [a; b; c; e] [] [] [].
Proof.
  intros a1 b1 c1 e1 _ _ H. cbn [P92 p_dims d_x d_p d_be d_bg d_he d_hg] in *.
  repeat match goal with |- _ /\ _ => split end; intros i Hi; try (exfalso; lia).
  assert (i = 0%nat) as -> by lia. specialize (H 3%nat ltac:(lia)). cbn in H. rewrite <- H; [lra|].
  unfold at_bound, bd, at_. cbn. intros [E|E]; discriminate.
Qed.
Lemma Ax92 f1 f2 f3 oAx oAp obc M j : update_master f1 f2 f3 oAx oAp obc P92 = Some M -> (j < 4)%nat -> mget (ms_Ax M) 0 j = if j =? 3 then 1 else 0.
Proof.
  intros U Hj. rewrite (Meq _ _ _ _ _ _ _ _ U). cbn [ms_Ax]. unfold master_Ax, mresize.
  destruct (_ =? m_rows oAx * m_cols oAx); destruct j as [|[|[|[|j]]]]; try lia; reflexivity.
Qed.
(** neither 0 nor (0, 5, 0, 0) is near an optimum *)
Lemma not_near92 tol y : tol <= 1 ->
  ~ user_near P92 tol [] [0; 0; 0; 0] [] [] [] [y] [] [] [] /\ ~ user_near P92 tol [] [0; 5; 0; 0] [] [] [] [y] [] [] [].
Proof.
  intros T. split; intros (_ & _ & N & _).
  - specialize (N 1%nat ltac:(cbn; lia)). revert N. cbn. unfold at_. cbn. unfold at_. cbn.
    intros [[A|[[A B]|[A B]]]|[[] _]]; try discriminate; [|lra].
    revert A. rewrite Rabs_left; lra.
  - specialize (N 0%nat ltac:(cbn; lia)). revert N. cbn. unfold at_. cbn. unfold at_. cbn.
    intros [[A|[[A B]|[A B]]]|[[] _]]; try discriminate; [|lra].
    revert A. rewrite Rabs_left; lra.
Qed.
(** the two steps: from 0 the variable x2 is held at its bound, from (0, 5, 0, 0) the variable x0 *)
Definition lo92 : list xreal := [XF 0; XF 0; XF 0; XNInf].
Definition hi92 : list xreal := [XPInf; XPInf; XPInf; XPInf].
Lemma held92 : held_back lo92 hi92 [0; 0; 0; 0] [0; 5; -3; 0] [0; 5; 0; 0] /\ held_back lo92 hi92 [0; 5; 0; 0] [-4; 0; 0; 0] [0; 0; 0; 0].
Proof.
  assert (B : forall v, v < 0 -> blocked (XF 0) XPInf 0 v) by (intros v Hv; right; split; [reflexivity|exact Hv]).
  assert (I : forall v, 0 <= v -> inside (XF 0) XPInf v) by (intros v Hv; apply inside_iff; auto).
  split; (split; [reflexivity|]; split; [reflexivity|]); intros [|[|[|[|i]]]] Hi; cbn in Hi; try lia; cbn;
    try (left; split; [|reflexivity]; solve [apply I; lra|apply inside_iff; auto]); right; (split; [apply B; lra|reflexivity]).
Qed.
Lemma all_inside92 a b c e : 0 <= a -> 0 <= b -> 0 <= c -> all_inside lo92 hi92 [a; b; c; e].
Proof. intros A B C [|[|[|[|i]]]] Hi; cbn in Hi; try lia; cbn; apply inside_iff; auto. Qed.
