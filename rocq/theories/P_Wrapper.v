(** Property theorems C56-C60, C63, C70 and C71. *)
From Coq Require Import List Arith Bool ZArith Reals Lra Lia Permutation.
From Coq Require Import Floats.SpecFloat.
From Verif Require Import Num Index_model Index_spec Index_proofs Wrapper_model Wrapper_spec Wrapper_proofs.
Import ListNotations.

(** ** C56.  Whatever the memory contained, all entries are as documented except those in
    rows of the equality constraints and columns of the slacks xbg. *)
Theorem C56_matrices_partial : forall (T Bd : Type) (N : Num T) (NB : Num Bd) f1 f2 f3 oAx oAp obc (P : problem T Bd) M,
  update_master f1 f2 f3 oAx oAp obc P = Some M ->
  let d := p_dims P in forall i, i < d_be d + d_bg d ->
  (forall j, j < d_x d + d_bg d + d_hg d -> ~ (i < d_be d /\ d_x d <= j < d_x d + d_bg d) ->
     mget (ms_Ax M) i j = documented_Ax d (p_Aex P) (p_Agx P) i j) /\
  (forall k, k < d_p d -> mget (ms_Ap M) i k = if i <? d_be d then p_Aep P i k else p_Agp P (i - d_be d) k) /\
  (forall k, k < d_c d -> mget (ms_bc M) i k = if i <? d_be d then p_bec P i k else p_bgc P (i - d_be d) k).
Proof.
  intros T Bd N NB f1 f2 f3 oAx oAp obc P M. unfold update_master. set (d := p_dims P).
  destruct (initialized _); cbn [negb]; [|discriminate].
  destruct ((0 <? d_he d) && _); [discriminate|]. destruct ((0 <? d_hg d) && _); [discriminate|].
  destruct ((0 <? d_p d) && _); [discriminate|]. intros E. injection E as <-. cbn [ms_Ax ms_Ap ms_bc].
  intros i Hi. split; [|split].
  - intros j Hj Hn. rewrite master_Ax_spec by assumption.
    destruct ((i <? d_be d) && _ && _) eqn:E; [|reflexivity]. exfalso. apply Hn.
    apply andb_true_iff in E. destruct E as [E E3]. apply andb_true_iff in E. destruct E as [E1 E2].
    apply Nat.ltb_lt in E1, E3. apply Nat.leb_le in E2. lia.
  - intros k Hk. apply master_Ap_spec; assumption.
  - intros k Hk. apply master_bc_spec; assumption.
Qed.
Print Assumptions C56_matrices_partial.

(** The excepted entries keep what the memory contained: after a problem with two equality
    constraints in two variables and Aex = [[1, 5], [0, 1]], the matrix of a problem with
    one equality and one inequality constraint in one variable is [[Aex, 5], [Agx, 1]]. *)
Definition d_first : dims := Dims 2 0 2 0 0 0 0.
Definition d_second : dims := Dims 1 0 1 1 0 0 0.
Definition rows64 (l : list (list Z)) (i j : nat) : spec_float := nofZ (nth j (nth i l []) 0%Z).
Definition prob64 (d : dims) (Aex Agx : list (list Z)) : problem spec_float spec_float :=
  let P := problem_new d in
  Problem d (p_r P) (p_f P) (p_he P) (p_hg P) (p_v P) (rows64 Aex) (p_Aep P) (rows64 Agx) (p_Agp P)
    (p_be P) (p_bg P) (p_xlower P) (p_xupper P) (p_plower P) (p_pupper P) (p_c P) (p_bec P) (p_bgc P).
Definition nomem : mat spec_float := Mat 0 0 (fun _ => nofZ 0).
Theorem C56_matrices_refuted : forall fresh fresh' : nat -> spec_float, exists M1 M2,
  update_master fresh fresh fresh nomem nomem nomem (prob64 d_first [[1; 5]; [0; 1]]%Z []) = Some M1 /\
  update_master fresh' fresh' fresh' (ms_Ax M1) (ms_Ap M1) (ms_bc M1) (prob64 d_second [[1]]%Z [[1]]%Z) = Some M2 /\
  mget (ms_Ax M2) 0 1 = nofZ 5 /\
  mget (ms_Ax M2) 0 1 <> documented_Ax d_second (rows64 [[1]]%Z) (rows64 [[1]]%Z) 0 1.
Proof. intros. eexists; eexists; split; [reflexivity|split; [reflexivity|]]. vm_compute. split; [reflexivity|discriminate]. Qed.
Print Assumptions C56_matrices_refuted.

(** ** C57.  The user's constraints hold at (x, p) iff there are slacks with which the master
    constraints hold, unless the entries excepted in C56 spoil the matrix. *)
Definition block_unspoiled (f1 : nat -> R) (oAx : mat R) (d : dims) : Prop :=
  d_be d = 0 \/ d_bg d = 0 \/
  forall i j, i < d_be d -> d_x d <= j < d_x d + d_bg d -> mget (mresize f1 oAx (ny d) (nxbar d)) i j = 0%R.
Lemma unspoiled_block f1 oAx d : block_unspoiled f1 oAx d ->
  forall i j, i < d_be d -> d_x d <= j < d_x d + d_bg d -> mget (mresize f1 oAx (ny d) (nxbar d)) i j = 0%R.
Proof. intros [E|[E|H]] i j Hi Hj; [lia|lia|]. apply H; assumption. Qed.

Theorem C57_slack_partial : forall f1 f2 f3 oAx oAp obc (P : problem R xreal) M x p,
  conforming P -> update_master f1 f2 f3 oAx oAp obc P = Some M -> block_unspoiled f1 oAx (p_dims P) ->
  length x = d_x (p_dims P) ->
  (user_feasible P x p <->
   exists xbg xhg, length xbg = d_bg (p_dims P) /\ length xhg = d_hg (p_dims P) /\ master_feasible M (x ++ xbg ++ xhg) p).
Proof.
  intros f1 f2 f3 oAx oAp obc P M x p C U B Lx. pose proof (unspoiled_block _ _ _ B) as Z. split.
  - intros F. set (d := p_dims P) in *.
    set (xbg := map (fun i => (at_ (p_bg P) i - Wrapper_spec.lin (d_x d) (d_p d) (p_Agx P) (p_Agp P) x p i)%R) (seq 0 (d_bg d))).
    set (xhg := map (fun i => (- c_val (value (uhg P) x p (p_c P)) i)%R) (seq 0 (d_hg d))).
    exists xbg, xhg. assert (L1 : length xbg = d_bg d) by (unfold xbg; rewrite map_length, seq_length; reflexivity).
    assert (L2 : length xhg = d_hg d) by (unfold xhg; rewrite map_length, seq_length; reflexivity).
    split; [exact L1|]. split; [exact L2|]. eapply feasible_iff; eauto. split; [exact F|]. unfold slacks. fold d. split; intros i Hi.
    + unfold at_ at 1. unfold xbg. erewrite nth_indep by (rewrite map_length, seq_length; exact Hi).
      rewrite map_nth with (d := 0). rewrite seq_nth by exact Hi. reflexivity.
    + unfold at_ at 1. unfold xhg. erewrite nth_indep by (rewrite map_length, seq_length; exact Hi).
      rewrite map_nth with (d := 0). rewrite seq_nth by exact Hi. reflexivity.
  - intros (xbg & xhg & L1 & L2 & F). apply -> feasible_iff in F; eauto. apply F.
Qed.
Print Assumptions C57_slack_partial.

(** the objective function of the master problem is that of the user *)
Theorem C57_objective : forall (T Bd : Type) (N : Num T) (NB : Num Bd) f1 f2 f3 oAx oAp obc (P : problem T Bd) M f x xbg xhg p,
  update_master f1 f2 f3 oAx oAp obc P = Some M -> p_f P = Some f -> length x = d_x (p_dims P) ->
  o_f (ovalue (ms_f M) (x ++ xbg ++ xhg) p (ms_c M)) = o_f (ovalue f x p (p_c P)).
Proof.
  intros T Bd N NB f1 f2 f3 oAx oAp obc P M f x xbg xhg p. unfold update_master. set (d := p_dims P).
  destruct (initialized _); cbn [negb]; [|discriminate].
  destruct ((0 <? d_he d) && _); [discriminate|]. destruct ((0 <? d_hg d) && _); [discriminate|].
  destruct ((0 <? d_p d) && _); [discriminate|]. intros E Ef Lx. injection E as <-. cbn [ms_f ms_c]. rewrite Ef.
  unfold ovalue, master_f, ocall. cbn [o_f oget]. rewrite head_app by exact Lx. reflexivity.
Qed.
Print Assumptions C57_objective.

(** The optimality conditions correspond, too: the master solver's (x, xbg, xhg), p and
    (ye, yg, ze, zg) form a KKT point of the master problem iff x, p, ye, yg, ze, zg form
    one of the user's problem and xbg, xhg are its slacks. *)
Theorem C57_kkt_partial : forall f1 f2 f3 oAx oAp obc (P : problem R xreal) M x p xbg xhg ye yg ze zg,
  conforming P -> update_master f1 f2 f3 oAx oAp obc P = Some M -> block_unspoiled f1 oAx (p_dims P) ->
  length x = d_x (p_dims P) -> length xbg = d_bg (p_dims P) -> length xhg = d_hg (p_dims P) ->
  length ye = d_be (p_dims P) -> length yg = d_bg (p_dims P) -> length ze = d_he (p_dims P) ->
  (master_kkt M (x ++ xbg ++ xhg) p (ye ++ yg ++ ze ++ zg) <->
   user_kkt P x p ye yg ze zg /\ slacks P x p xbg xhg).
Proof.
  intros f1 f2 f3 oAx oAp obc P M x p xbg xhg ye yg ze zg C U B. intros.
  eapply kkt_iff; eauto. exact (unspoiled_block _ _ _ B).
Qed.
Print Assumptions C57_kkt_partial.

(** minimise x subject to x >= 1 (as a linear inequality constraint) and -5 <= x: x = 1 with
    yg = -1 is a KKT point *)
Definition cfn0 : cfun R := fun x p c r => r.
Definition fx1 : ofun R := fun x p c r =>
  ORes (at_ x 0) (fun i => if i =? 0 then 1%R else 0%R) (o_fxx r) (o_fxp r) (o_fxc r) true false true.
Definition P57 : problem R xreal := Problem (Dims 1 0 0 1 0 0 0) None (Some fx1) (Some cfn0) (Some cfn0) (Some cfn0)
  mzeros mzeros (fun _ _ => 1%R) mzeros [] [1%R] [XF (-5)] [XPInf] [] [] [] mzeros mzeros.
Example C57_case : exists M, conforming P57 /\
  update_master (fun _ => 7%R) (fun _ => 7%R) (fun _ => 7%R) (Mat 0 0 (fun _ => 7%R)) (Mat 0 0 (fun _ => 7%R)) (Mat 0 0 (fun _ => 7%R)) P57 = Some M /\
  block_unspoiled (fun _ => 7%R) (Mat 0 0 (fun _ => 7%R)) (p_dims P57) /\
  user_kkt P57 [1%R] [] [] [(-1)%R] [] [] /\ master_kkt M [1; 0]%R [] [(-1)%R].
Proof.
  assert (LE : forall a b, (a <= b)%R -> rleb a b = true) by (intros a b H; unfold rleb; destruct (Rle_dec a b); [reflexivity|contradiction]).
  eexists. split; [repeat split|]. split; [reflexivity|].
  assert (B : block_unspoiled (fun _ => 7%R) (Mat 0 0 (fun _ => 7%R)) (p_dims P57)) by (left; reflexivity).
  split; [exact B|].
  assert (K : user_kkt P57 [1%R] [] [] [(-1)%R] [] []).
  { split; [|split; [|split]].
    - unfold user_feasible. split; [|split; [|split; [|split; [|split]]]]; try (intros i Hi; cbn in Hi; try lia).
      + destruct i; [|lia]. unfold Wrapper_spec.lin. cbn. lra.
      + split; intros i Hi; cbn in Hi; try lia. destruct i; [|lia]. cbn. split; [|reflexivity]. apply LE. lra.
    - intros j Hj. cbn in Hj. destruct j; [|lia]. left. unfold mzeros. cbn. lra.
    - intros i Hi. cbn in Hi. destruct i; [|lia]. unfold Wrapper_spec.lin. cbn. split; [lra|right; lra].
    - intros i Hi. cbn in Hi. lia. }
  split; [exact K|].
  change [1; 0]%R with ([1]%R ++ [0]%R ++ []). change [(-1)%R] with (@nil R ++ [(-1)%R] ++ [] ++ []).
  eapply (C57_kkt_partial _ _ _ _ _ _ P57); [repeat split|reflexivity|exact B|reflexivity..|].
  split; [exact K|]. split; intros i Hi; cbn in Hi; [|lia]. destruct i; [|lia]. unfold Wrapper_spec.lin. cbn. lra.
Qed.

(** With an equality constraint 0 = 0 as well and memory full of ones, the master problem
    demands x = 1 instead of x >= 1: the feasible point x = 2 has no slacks. *)
Definition P57' : problem R xreal := Problem (Dims 1 0 1 1 0 0 0) None (Some fx1) (Some cfn0) (Some cfn0) (Some cfn0)
  mzeros mzeros (fun _ _ => 1%R) mzeros [0%R] [1%R] [XF (-5)] [XPInf] [] [] [] mzeros mzeros.
Definition ones : mat R := Mat 0 0 (fun _ => 1%R).
Theorem C57_slack_refuted : exists M, conforming P57' /\ user_feasible P57' [2%R] [] /\
  update_master (fun _ => 1%R) (fun _ => 1%R) (fun _ => 1%R) ones ones ones P57' = Some M /\
  forall xbg xhg, length xbg = 1 -> length xhg = 0 -> ~ master_feasible M ([2%R] ++ xbg ++ xhg) [].
Proof.
  assert (LE : forall a b, (a <= b)%R -> rleb a b = true) by (intros a b H; unfold rleb; destruct (Rle_dec a b); [reflexivity|contradiction]).
  eexists. split; [repeat split|]. split; [|split; [reflexivity|]].
  - unfold user_feasible. split; [|split; [|split; [|split; [|split]]]]; try (intros i Hi; cbn in Hi; try lia).
    + destruct i; [|lia]. unfold Wrapper_spec.lin. cbn. unfold mzeros. cbn. lra.
    + destruct i; [|lia]. unfold Wrapper_spec.lin. cbn. lra.
    + split; intros i Hi; cbn in Hi; try lia. destruct i; [|lia]. cbn. split; [|reflexivity]. apply LE. lra.
  - intros xbg xhg L1 L2 (H & _). destruct xbg as [|s [|]]; try discriminate. destruct xhg; [|discriminate].
    pose proof (H 0 ltac:(cbn; lia)) as H0. pose proof (H 1 ltac:(cbn; lia)) as H1.
    cbv [ms_ny ms_nx ms_np ms_b ms_Ax ms_Ap at_ nth app Wrapper_spec.lin sum mget master_Ax master_Ap mput mresize m_rows m_cols m_mem ny nxbar d_x d_p d_be d_bg d_hg ones P57' p_dims p_Aex p_Agx p_Aep p_Agp p_be p_bg] in H0, H1.
    vm_compute in H0, H1. cbn in H0, H1. lra.
Qed.
Print Assumptions C57_slack_refuted.

(** ** C58 *)
Theorem C58_layout : forall (T : Type) (N : Num T) (d : dims) (he hg : cfun T) (x xbg xhg p c : list T),
  length x = d_x d -> length xbg = d_bg d -> length xhg = d_hg d ->
  let H := value (master_h d he hg) (x ++ xbg ++ xhg) p c in let E := value he x p c in let G := value hg x p c in
  (forall i, i < d_he d -> c_val H i = c_val E i /\
     (forall j, j < d_x d -> c_ddx H i j = c_ddx E i j) /\ (forall j, j < d_bg d + d_hg d -> c_ddx H i (d_x d + j) = nzero) /\
     (forall k, c_ddp H i k = c_ddp E i k) /\ (forall k, c_ddc H i k = c_ddc E i k)) /\
  (forall i, i < d_hg d -> c_val H (d_he d + i) = nadd (c_val G i) (nth i xhg nzero) /\
     (forall j, j < d_x d -> c_ddx H (d_he d + i) j = c_ddx G i j) /\ (forall j, j < d_bg d -> c_ddx H (d_he d + i) (d_x d + j) = nzero) /\
     (forall j, j < d_hg d -> c_ddx H (d_he d + i) (d_x d + d_bg d + j) = if i =? j then none1 else nzero) /\
     (forall k, c_ddp H (d_he d + i) k = c_ddp G i k) /\ (forall k, c_ddc H (d_he d + i) k = c_ddc G i k)).
Proof.
  intros T N d he hg x xbg xhg p c Lx Lb Lh H E G. unfold H, E, G.
  assert (L : length (x ++ xbg ++ xhg) = nxbar d) by (rewrite !app_length, Lx, Lb, Lh; unfold nxbar; lia).
  pose proof (master_h_val d (x ++ xbg ++ xhg) p c L he hg) as V. pose proof (master_h_ddx d (x ++ xbg ++ xhg) p c L he hg) as X.
  pose proof (master_h_ddp d (x ++ xbg ++ xhg) p c L he hg) as Pp. pose proof (master_h_ddc d (x ++ xbg ++ xhg) p c L he hg) as Cc.
  rewrite (head_app _ _ _ Lx) in V, X, Pp, Cc. unfold nz, nxbar in *.
  split; intros i Hi; repeat split; intros.
  - rewrite V by lia. bsolve. reflexivity.
  - rewrite X by lia. bsolve. reflexivity.
  - rewrite X by lia. bsolve. reflexivity.
  - rewrite Pp by lia. bsolve. reflexivity.
  - rewrite Cc by lia. bsolve. reflexivity.
  - rewrite V by lia. bsolve. replace (d_he d + i - d_he d) with i by lia. f_equal.
    rewrite <- Lx, <- Lb, <- Nat.add_assoc, app_nth2_plus. apply app_nth2_plus.
  - rewrite X by lia. bsolve. replace (d_he d + i - d_he d) with i by lia. reflexivity.
  - rewrite X by lia. bsolve. reflexivity.
  - rewrite X by lia. replace (d_he d + i - d_he d) with i by lia. replace (d_x d + d_bg d + j - (d_x d + d_bg d)) with j by lia. bsolve; reflexivity.
  - rewrite Pp by lia. bsolve. replace (d_he d + i - d_he d) with i by lia. reflexivity.
  - rewrite Cc by lia. bsolve. replace (d_he d + i - d_he d) with i by lia. reflexivity.
Qed.
Print Assumptions C58_layout.

(** likewise f and v, whose derivatives with respect to the slacks are zero *)
Theorem C58_layout_f_v : forall (T : Type) (N : Num T) (d : dims) (f : ofun T) (v : cfun T) (x xbg xhg p c : list T),
  length x = d_x d -> length xbg = d_bg d -> length xhg = d_hg d ->
  let FF := ovalue (master_f d f) (x ++ xbg ++ xhg) p c in let F := ovalue f x p c in
  let VV := value (master_v d v) (x ++ xbg ++ xhg) p c in let V := value v x p c in
  (o_f FF = o_f F /\ o_ok FF = o_ok F /\ o_diag FF = o_diag F /\
   forall i, o_fx FF i = (if i <? d_x d then o_fx F i else nzero) /\
     (forall j, o_fxx FF i j = if (i <? d_x d) && (j <? d_x d) then o_fxx F i j else nzero) /\
     (forall k, o_fxp FF i k = if i <? d_x d then o_fxp F i k else nzero) /\
     (forall k, o_fxc FF i k = if i <? d_x d then o_fxc F i k else nzero)) /\
  (c_ok VV = c_ok V /\
   forall i, i < d_p d -> c_val VV i = c_val V i /\
     (forall j, j < d_x d + d_bg d + d_hg d -> c_ddx VV i j = if j <? d_x d then c_ddx V i j else nzero) /\
     (forall k, c_ddp VV i k = c_ddp V i k) /\ (forall k, c_ddc VV i k = c_ddc V i k)).
Proof.
  intros T N d f v x xbg xhg p c Lx Lb Lh FF F VV V. unfold FF, F, VV, V.
  assert (L : length (x ++ xbg ++ xhg) = nxbar d) by (rewrite !app_length, Lx, Lb, Lh; unfold nxbar; lia).
  split.
  - unfold ovalue, master_f, ocall. cbn. rewrite (head_app _ _ _ Lx). repeat split.
  - split; [unfold value, master_v, ccall; cbn; rewrite (head_app _ _ _ Lx); reflexivity|].
    intros i Hi. pose proof (master_v_val d (x ++ xbg ++ xhg) p c L v i Hi) as V1.
    pose proof (fun j => master_v_ddx d (x ++ xbg ++ xhg) p c L v i j Hi) as V2.
    pose proof (fun k => master_v_rest d (x ++ xbg ++ xhg) p c L v i k Hi) as V3.
    rewrite (head_app _ _ _ Lx) in *. split; [exact V1|]. split; [exact V2|]. split; intros k; apply V3.
Qed.
Print Assumptions C58_layout_f_v.

(** The flag that comes out is that of hg alone ... *)
Theorem C58_flag_partial : forall (T : Type) (N : Num T) (d : dims) (he hg : cfun T) (x xbg xhg p c : list T),
  length x = d_x d ->
  c_ok (value (master_h d he hg) (x ++ xbg ++ xhg) p c) = c_ok (value hg x p c).
Proof. intros T N d he hg x xbg xhg p c Lx. unfold value, master_h, ccall. cbn. rewrite (head_app _ _ _ Lx). reflexivity. Qed.
Print Assumptions C58_flag_partial.

(** ... so a failure of he goes unnoticed; with the default hg, too, which does nothing. *)
Definition he_fails : cfun spec_float := fun x p c r => CRes (c_val r) (c_ddx r) (c_ddp r) (c_ddc r) (c_basic r) false.
Theorem C58_flag_refuted : exists (d : dims) (x : list spec_float), length x = d_x d /\ d_he d = 1 /\ d_hg d = 0 /\
  c_ok (value he_fails x [] []) = false /\ c_ok (value (master_h d he_fails (cget cfun_default)) x [] []) = true.
Proof. exists (Dims 1 0 0 0 1 0 0), [nofZ 3]. repeat split. Qed.
Print Assumptions C58_flag_refuted.

(** ** C59 *)
Definition state_sized {T} (d : dims) (s : ustate T) : Prop :=
  length (s_x s) = d_x d /\ length (s_ye s) = d_be d /\ length (s_yg s) = d_bg d /\ length (s_ze s) = d_he d /\
  length (s_zg s) = d_hg d /\ length (s_xbg s) = d_bg d /\ length (s_xhg s) = d_hg d.

Theorem C59_roundtrip : forall (T : Type) part (d : dims) (m : mstate T) (s : ustate T), state_sized d s ->
  let s' := of_master part d (to_master m s) s in
  s_x s' = s_x s /\ s_p s' = s_p s /\ s_ye s' = s_ye s /\ s_yg s' = s_yg s /\ s_ze s' = s_ze s /\ s_zg s' = s_zg s /\
  s_xbg s' = s_xbg s /\ s_xhg s' = s_xhg s.
Proof.
  intros T part d m s (Lx & Lye & Lyg & Lze & Lzg & Lb & Lh) s'. unfold s', of_master, to_master. cbn [s_x s_p s_ye s_yg s_ze s_zg s_s s_xbg s_xhg t_x t_p t_w t_s].
  assert (Y : head (ny d) (s_ye s ++ s_yg s ++ s_ze s ++ s_zg s) = s_ye s ++ s_yg s).
  { rewrite app_assoc. apply head_app. rewrite app_length. unfold ny. lia. }
  assert (Z : tail (nz d) (s_ye s ++ s_yg s ++ s_ze s ++ s_zg s) = s_ze s ++ s_zg s).
  { rewrite app_assoc. apply tail_app. rewrite app_length. unfold nz. lia. }
  rewrite Y, Z. repeat split.
  - apply head_app. exact Lx.
  - apply head_app. exact Lye.
  - apply tail_app. exact Lyg.
  - apply head_app. exact Lze.
  - apply tail_app. exact Lzg.
  - apply segment_app; assumption.
  - rewrite app_assoc. apply tail_app. exact Lh.
Qed.
Print Assumptions C59_roundtrip.

(** Nothing of the master's x, p and w is lost or duplicated on the way back either, and s
    is cut to the user's variables. *)
Theorem C59_complete : forall (T : Type) part (d : dims) (m : mstate T) (s : ustate T),
  length (t_x m) = d_x d + d_bg d + d_hg d -> length (t_w m) = d_be d + d_bg d + (d_he d + d_hg d) ->
  let s' := of_master part d m s in
  s_x s' ++ s_xbg s' ++ s_xhg s' = t_x m /\ s_ye s' ++ s_yg s' ++ s_ze s' ++ s_zg s' = t_w m /\ s_p s' = t_p m /\
  state_sized d s' /\ s_s s' = firstn (d_x d) (t_s m).
Proof.
  intros T part d m s Lx Lw s'.
  assert (S3 : forall (l : list T) a b c, length l = a + b + c ->
    exists l1 l2 l3, l = l1 ++ l2 ++ l3 /\ length l1 = a /\ length l2 = b /\ length l3 = c).
  { intros l a b c Hl. exists (firstn a l), (firstn b (skipn a l)), (skipn b (skipn a l)).
    rewrite !firstn_skipn. rewrite !firstn_length, !skipn_length. repeat split; lia. }
  destruct (S3 _ _ _ _ Lx) as (x1 & x2 & x3 & Ex & Lx1 & Lx2 & Lx3).
  destruct (S3 (t_w m) (d_be d) (d_bg d) (d_he d + d_hg d) Lw) as (y1 & y2 & z & Ew & Ly1 & Ly2 & Lz).
  destruct (S3 z (d_he d) (d_hg d) 0 ltac:(lia)) as (z1 & z2 & z3 & Ez & Lz1 & Lz2 & Lz3).
  destruct z3; [|discriminate]. rewrite app_nil_r in Ez. subst z.
  unfold s', of_master, state_sized. cbn [s_x s_p s_ye s_yg s_ze s_zg s_s s_xbg s_xhg t_x t_p t_w t_s]. rewrite Ex, Ew.
  assert (Y : head (ny d) (y1 ++ y2 ++ z1 ++ z2) = y1 ++ y2).
  { rewrite app_assoc. apply head_app. rewrite app_length. unfold ny. lia. }
  assert (Z : tail (nz d) (y1 ++ y2 ++ z1 ++ z2) = z1 ++ z2).
  { rewrite app_assoc. apply tail_app. rewrite app_length. unfold nz. lia. }
  rewrite Y, Z, !(head_app _ _ _ Lx1), !(head_app _ _ _ Ly1), !(tail_app _ _ _ Ly2), !(head_app _ _ _ Lz1), !(tail_app _ _ _ Lz2).
  rewrite !(segment_app _ _ _ _ _ Lx1 Lx2).
  replace (tail (d_hg d) (x1 ++ x2 ++ x3)) with x3 by (rewrite app_assoc, tail_app by exact Lx3; reflexivity).
  repeat split; assumption.
Qed.
Print Assumptions C59_complete.

(** The index sets given to the user: the master's indices below dims.x, each as often as
    there. *)
Theorem C59_indices : forall part (d : dims) (l : list nat), partition_contract part ->
  Forall (fun i => i < d_x d + d_bg d + d_hg d) l ->
  Permutation (user_indices part d l) (filter (fun i => i <? d_x d) l).
Proof.
  intros part d l HP Hl. unfold user_indices. destruct (Nat.ltb_spec 0 (d_bg d + d_hg d)) as [H|H].
  - destruct (moveRightIf part l (fun i => d_x d <=? i)) as [l' k] eqn:E.
    destruct (moveRightIf_splits part HP _ _ _ _ E) as [(S1 & _ & S2 & S3) _]. unfold head.
    rewrite (filter_perm _ _ _ S1). rewrite <- (firstn_skipn k l') at 2. rewrite filter_app.
    rewrite filter_all by (intros i Hi; apply S2, Nat.leb_gt in Hi; apply Nat.ltb_lt; exact Hi).
    rewrite filter_none; [rewrite app_nil_r; reflexivity|].
    intros i Hi. apply S3 in Hi. destruct (Nat.leb_spec (d_x d) i); [apply Nat.ltb_ge; assumption|]. exfalso. apply Hi. reflexivity.
  - unfold head. rewrite firstn_all, filter_all; [reflexivity|].
    intros i Hi. apply Nat.ltb_lt. rewrite Forall_forall in Hl. specialize (Hl i Hi). lia.
Qed.
Print Assumptions C59_indices.

Example C59_case : user_indices libstdcxx_partition (Dims 3 0 0 2 0 0 0) [4; 1; 3; 0] = [0; 1] /\ partition_contract libstdcxx_partition.
Proof. split; [vm_compute; reflexivity|apply libstdcxx_contract]. Qed.

(** Sensitivity: the rows of dx/dc and dw/dc are distributed without loss. *)
Theorem C59_sensitivity : forall (T : Type) (d : dims) (g : msens T),
  length (g_xc g) = d_x d + d_bg d + d_hg d -> length (g_wc g) = d_be d + d_bg d + (d_he d + d_hg d) ->
  let s := of_msens d g in
  e_xc s ++ e_xbgc s ++ e_xhgc s = g_xc g /\ e_yec s ++ e_ygc s ++ e_zec s ++ e_zgc s = g_wc g /\ e_pc s = g_pc g /\
  length (e_xc s) = d_x d /\ length (e_xbgc s) = d_bg d /\ length (e_xhgc s) = d_hg d /\
  length (e_yec s) = d_be d /\ length (e_ygc s) = d_bg d /\ length (e_zec s) = d_he d /\ length (e_zgc s) = d_hg d /\
  e_sc s = firstn (d_x d) (g_sc g).
Proof.
  intros T d g Lx Lw s.
  destruct (C59_complete (list T) std_stable_partition d
    (MState (g_xc g) (g_pc g) (g_wc g) (g_sc g) [] [] [] [] [] []) (UState d [] [] [] [] [] [] [] [] [] [] [] [] [] [] []) Lx Lw)
    as (E1 & E2 & E3 & (L1 & L2 & L3 & L4 & L5 & L6 & L7) & E4).
  cbn in *. repeat split; assumption.
Qed.
Print Assumptions C59_sensitivity.

(** ** C60.  P = Q copies all data of a Problem, and all of a State and a Sensitivity ... *)
Theorem C60_copy_partial : forall (T Bd : Type) (P Q : problem T Bd) (s s' : ustate T) (e e' : sens T),
  (let R := problem_assign P Q in
   p_dims R = p_dims Q /\ p_Aex R = p_Aex Q /\ p_Aep R = p_Aep Q /\ p_Agx R = p_Agx Q /\ p_Agp R = p_Agp Q /\
   p_be R = p_be Q /\ p_bg R = p_bg Q /\ p_xlower R = p_xlower Q /\ p_xupper R = p_xupper Q /\
   p_plower R = p_plower Q /\ p_pupper R = p_pupper Q /\ p_c R = p_c Q /\ p_bec R = p_bec Q /\ p_bgc R = p_bgc Q) /\
  state_assign s s' = s' /\ sens_assign e e' = e'.
Proof. intros T Bd P Q s s' e e'. split; [repeat split|]. split; [destruct s'|destruct e']; reflexivity. Qed.
Print Assumptions C60_copy_partial.

(** ... but the functions of the Problem stay what they were. *)
Theorem C60_copy_refuted : forall (T Bd : Type) (P Q : problem T Bd), p_f P <> p_f Q -> problem_assign P Q <> Q.
Proof. intros T Bd P Q H E. apply H. rewrite <- E. reflexivity. Qed.
Print Assumptions C60_copy_refuted.
Example C60_case : p_f (problem_new (T := R) (Bd := R) (Dims 1 0 0 0 0 0 0)) <> Some fx1.
Proof.
  cbn. unfold ofun_default, fx1. intros E. injection E as E.
  apply (f_equal (fun f => o_fx (f [] [] [] ozero) 0)) in E. cbn in E. lra.
Qed.

(** ** C63.  One evaluation calls f, he, hg and v with the user's x ... *)
Theorem C63_arguments_partial : forall (T : Type) (d : dims) (x xbg xhg : list T) who arg, length x = d_x d ->
  In (who, arg) (user_calls d (x ++ xbg ++ xhg)) -> who <> Call_r \/ (xbg = [] /\ xhg = []) -> arg = x.
Proof.
  intros T d x xbg xhg who arg Lx. unfold user_calls. rewrite (head_app _ _ _ Lx).
  intros [E|[E|E]] H.
  - injection E as <- <-. destruct H as [H|[-> ->]]; [contradiction|]. rewrite !app_nil_r. reflexivity.
  - injection E as _ <-. reflexivity.
  - cbn [app] in E. apply in_app_or in E. destruct E as [E|E].
    + destruct (0 <? nz d); [|contradiction]. destruct E as [E|[E|[]]]; injection E as _ <-; reflexivity.
    + destruct (0 <? d_p d); [|contradiction]. destruct E as [E|[]]; injection E as _ <-; reflexivity.
Qed.
Print Assumptions C63_arguments_partial.

(** ... but r with the slacks appended, whenever there are any. *)
Theorem C63_arguments_refuted : forall (T : Type) (d : dims) (x xbg xhg : list T),
  length x = d_x d -> xbg ++ xhg <> [] ->
  exists arg, In (Call_r, arg) (user_calls d (x ++ xbg ++ xhg)) /\ arg <> x /\ d_x d < length arg.
Proof.
  intros T d x xbg xhg Lx H. exists (x ++ xbg ++ xhg). split; [left; reflexivity|].
  assert (L : d_x d < length (x ++ xbg ++ xhg)).
  { rewrite app_length, Lx. destruct (xbg ++ xhg); [contradiction|]. cbn. lia. }
  split; [|exact L]. intros E. rewrite E in L. lia.
Qed.
Print Assumptions C63_arguments_refuted.

(** ** C70.  The checks that the functions have been set: a function that holds nothing is
    refused ... *)
Theorem C70_unset_partial : forall (T Bd : Type) (N : Num T) (NB : Num Bd) f1 f2 f3 oAx oAp obc (P : problem T Bd),
  (p_f P = None \/ (0 < d_he (p_dims P) /\ p_he P = None) \/ (0 < d_hg (p_dims P) /\ p_hg P = None) \/ (0 < d_p (p_dims P) /\ p_v P = None)) <->
  update_master f1 f2 f3 oAx oAp obc P = None.
Proof.
  intros T Bd N NB f1 f2 f3 oAx oAp obc P. unfold update_master. set (d := p_dims P).
  assert (X : forall n (A : Type) (o : option A), (0 <? n) && negb (initialized o) = true <-> 0 < n /\ o = None).
  { intros n A o. rewrite andb_true_iff, Nat.ltb_lt. destruct o; cbn; intuition (try discriminate; try reflexivity). }
  destruct (p_f P) as [f|] eqn:Ef; cbn [initialized negb]; [|intuition].
  destruct ((0 <? d_he d) && _) eqn:E1; [apply X in E1; intuition|].
  destruct ((0 <? d_hg d) && _) eqn:E2; [apply X in E2; intuition|].
  destruct ((0 <? d_p d) && _) eqn:E3; [apply X in E3; intuition|].
  split; [|discriminate]. intros [H|[H|[H|H]]]; [discriminate| | |]; apply X in H; congruence.
Qed.
Print Assumptions C70_unset_partial.

(** ... but no function ever holds nothing: the default ones do not, and setting one to
    nothing throws.  A problem whose functions were never set is accepted. *)
Theorem C70_unset_refuted : forall (T Bd : Type) (N : Num T) (NB : Num Bd) f1 f2 f3 oAx oAp obc (d : dims),
  exists M, update_master f1 f2 f3 oAx oAp obc (problem_new d : problem T Bd) = Some M.
Proof.
  intros. destruct (update_master f1 f2 f3 oAx oAp obc (problem_new d : problem T Bd)) as [M|] eqn:E; [exists M; reflexivity|].
  apply C70_unset_partial in E. cbn in E. intuition discriminate.
Qed.
Print Assumptions C70_unset_refuted.
Theorem C70_set_never_empty : forall (A : Type) (func fn : option A), fun_set func = Some fn -> fn <> None.
Proof. intros A [f|] fn E; [injection E as <-; discriminate|discriminate]. Qed.
Print Assumptions C70_set_never_empty.

(** ** C71.  One name for each variable of the master problem, the user's where given. *)
Theorem C71_names : forall (Name : Type) (num bgnum hgnum : nat -> Name) d xn bgn hgn out,
  master_names num bgnum hgnum true d xn bgn hgn = Some out ->
  length out = d_x d + d_bg d + d_hg d /\
  forall def i,
    (i < d_x d -> nth i out def = if length xn =? 0 then num i else nth i xn def) /\
    (i < d_bg d -> nth (d_x d + i) out def = if length bgn =? 0 then bgnum i else nth i bgn def) /\
    (i < d_hg d -> nth (d_x d + d_bg d + i) out def = if length hgn =? 0 then hgnum i else nth i hgn def).
Proof.
  intros Name num bgnum hgnum d xn bgn hgn out. unfold master_names.
  destruct (names_ok xn (d_x d)) eqn:E1; [|discriminate]. destruct (names_ok bgn (d_bg d)) eqn:E2; [|discriminate].
  destruct (names_ok hgn (d_hg d)) eqn:E3; [|discriminate]. cbn [andb negb]. intros E. injection E as <-.
  assert (X : forall (names : list Name) (def : nat -> Name) n, names_ok names n = true -> length (names_or names def n) = n /\
    forall (de : Name) i, i < n -> nth i (names_or names def n) de = if length names =? 0 then def i else nth i names de).
  { intros names def n. unfold names_ok, names_or. destruct (Nat.eqb_spec (length names) 0) as [E|E]; cbn [orb].
    - intros _. split; [rewrite map_length, seq_length; reflexivity|]. intros de i Hi.
      erewrite nth_indep by (rewrite map_length, seq_length; exact Hi). rewrite map_nth with (d := 0). rewrite seq_nth by exact Hi. reflexivity.
    - intros H. apply Nat.eqb_eq in H. split; [exact H|reflexivity]. }
  destruct (X xn num _ E1) as [L1 N1]. destruct (X bgn bgnum _ E2) as [L2 N2]. destruct (X hgn hgnum _ E3) as [L3 N3].
  split; [rewrite !app_length; lia|]. intros def i. split; [|split]; intros Hi.
  - rewrite app_nth1 by lia. apply N1. exact Hi.
  - rewrite <- L1 at 1. rewrite app_nth2_plus, app_nth1 by lia. apply N2. exact Hi.
  - rewrite <- L1, <- L2 at 1. rewrite <- Nat.add_assoc, app_nth2_plus, app_nth2_plus. apply N3. exact Hi.
Qed.
Print Assumptions C71_names.
Theorem C71_wrong_size : forall (Name : Type) (num bgnum hgnum : nat -> Name) d xn bgn hgn,
  master_names num bgnum hgnum true d xn bgn hgn = None <->
  (xn <> [] /\ length xn <> d_x d) \/ (bgn <> [] /\ length bgn <> d_bg d) \/ (hgn <> [] /\ length hgn <> d_hg d).
Proof.
  intros Name num bgnum hgnum d xn bgn hgn. unfold master_names.
  assert (X : forall (l : list Name) n, names_ok l n = false <-> l <> [] /\ length l <> n).
  { intros l n. unfold names_ok. rewrite orb_false_iff, !Nat.eqb_neq. destruct l; cbn; intuition (try discriminate; try lia). }
  rewrite <- !X. destruct (names_ok xn _), (names_ok bgn _), (names_ok hgn _); cbn; intuition discriminate.
Qed.
Print Assumptions C71_wrong_size.
Example C71_case : master_names (fun i => i) (fun i => 10 + i) (fun i => 20 + i) true (Dims 2 0 0 2 0 1 0) [7; 8] [] [9] = Some [7; 8; 10; 11; 9].
Proof. reflexivity. Qed.
