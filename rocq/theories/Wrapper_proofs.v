(** Lemmas for P_Wrapper.v. *)
From Coq Require Import List Arith Bool Reals Lra Lia Permutation.
From Verif Require Import Num Index_model Index_spec Index_proofs Wrapper_model Wrapper_spec.
Import ListNotations.

Ltac bstep := match goal with
  | |- context [?a <? ?b] => first [replace (a <? b) with true by (symmetry; apply Nat.ltb_lt; lia)
      | replace (a <? b) with false by (symmetry; apply Nat.ltb_ge; lia) | destruct (Nat.ltb_spec a b)]
  | |- context [?a <=? ?b] => first [replace (a <=? b) with true by (symmetry; apply Nat.leb_le; lia)
      | replace (a <=? b) with false by (symmetry; apply Nat.leb_gt; lia) | destruct (Nat.leb_spec a b)]
  | |- context [?a =? ?b] => first [replace (a =? b) with true by (symmetry; apply Nat.eqb_eq; lia)
      | replace (a =? b) with false by (symmetry; apply Nat.eqb_neq; lia) | destruct (Nat.eqb_spec a b)] end.
Ltac bsolve := repeat (bstep; cbn [andb orb negb]).

Section Mat.
Context {T : Type} {N : Num T}.

Lemma mget_mput (M : mat T) r0 c0 nr nc src i j : i < m_rows M ->
  mget (mput M r0 c0 nr nc src) i j =
    if (r0 <=? i) && (i <? r0 + nr) && (c0 <=? j) && (j <? c0 + nc) then src (i - r0) (j - c0) else mget M i j.
Proof.
  intros Hi. unfold mget, mput. cbn [m_mem m_rows].
  rewrite Nat.mod_add, Nat.mod_small by lia. rewrite Nat.div_add, Nat.div_small by lia. reflexivity.
Qed.
Lemma mput_rows (M : mat T) r0 c0 nr nc src : m_rows (mput M r0 c0 nr nc src) = m_rows M.
Proof. reflexivity. Qed.
Lemma mresize_rows fresh (M : mat T) r c : m_rows (mresize fresh M r c) = r /\ m_cols (mresize fresh M r c) = c.
Proof. unfold mresize. destruct (_ =? _); split; reflexivity. Qed.

Lemma master_Ax_spec fresh (old : mat T) d Aex Agx i j : i < ny d -> j < nxbar d ->
  mget (master_Ax fresh old d Aex Agx) i j =
    if (i <? d_be d) && (d_x d <=? j) && (j <? d_x d + d_bg d) then mget (mresize fresh old (ny d) (nxbar d)) i j
    else documented_Ax d Aex Agx i j.
Proof.
  intros Hi Hj. unfold master_Ax. destruct (mresize_rows fresh old (ny d) (nxbar d)) as [Er Ec].
  set (M0 := mresize _ _ _ _) in *. rewrite Er, Ec.
  destruct (Nat.eqb_spec (ny d * nxbar d) 0) as [E|_]; [apply Nat.mul_eq_0 in E; lia|].
  rewrite !mget_mput by (rewrite ?mput_rows, ?Er; exact Hi).
  unfold documented_Ax, stacked, midentity, mzeros, nxbar, ny in *.
  bsolve; try reflexivity; repeat (f_equal; try lia).
Qed.
Lemma master_Ap_spec fresh (old : mat T) d Aep Agp i j : i < ny d -> j < d_p d ->
  mget (master_Ap fresh old d Aep Agp) i j = if i <? d_be d then Aep i j else Agp (i - d_be d) j.
Proof.
  intros Hi Hj. unfold master_Ap. destruct (mresize_rows fresh old (ny d) (d_p d)) as [Er Ec].
  set (M0 := mresize _ _ _ _) in *. rewrite Er, Ec.
  destruct (Nat.eqb_spec (ny d * d_p d) 0) as [E|_]; [apply Nat.mul_eq_0 in E; lia|].
  rewrite !mget_mput by (rewrite ?mput_rows, ?Er; exact Hi).
  unfold stacked, ny in *. bsolve; repeat (f_equal; try lia).
Qed.
Lemma master_bc_spec fresh (old : mat T) d bec bgc i j : i < ny d -> j < d_c d ->
  mget (master_bc fresh old d bec bgc) i j = if i <? d_be d then bec i j else bgc (i - d_be d) j.
Proof.
  intros Hi Hj. unfold master_bc. destruct (mresize_rows fresh old (ny d) (d_c d)) as [Er Ec].
  set (M0 := mresize _ _ _ _) in *.
  rewrite !mget_mput by (rewrite ?mput_rows, ?Er; exact Hi).
  unfold ny in *. bsolve; repeat (f_equal; try lia).
Qed.
End Mat.

Section Lists.
Context {A : Type}.
Lemma head_app n (a b : list A) : length a = n -> head n (a ++ b) = a.
Proof. intros <-. unfold head. rewrite firstn_app, Nat.sub_diag, firstn_all, app_nil_r. reflexivity. Qed.
Lemma head_all n (a : list A) : length a = n -> head n a = a.
Proof. intros <-. apply firstn_all. Qed.
Lemma tail_app n (a b : list A) : length b = n -> tail n (a ++ b) = b.
Proof.
  intros <-. unfold tail. rewrite app_length, Nat.add_sub, skipn_app, Nat.sub_diag, skipn_all. reflexivity.
Qed.
Lemma tail_all n (a : list A) : length a = n -> tail n a = a.
Proof. intros <-. unfold tail. rewrite Nat.sub_diag. reflexivity. Qed.
Lemma segment_app n m (a b c : list A) : length a = n -> length b = m -> segment n m (a ++ b ++ c) = b.
Proof.
  intros <- <-. unfold segment. rewrite skipn_app, Nat.sub_diag, skipn_all. cbn [app].
  rewrite skipn_O. apply (head_app (length b)). reflexivity.
Qed.
End Lists.

Lemma filter_perm {A} (p : A -> bool) l l' : Permutation l l' -> Permutation (filter p l) (filter p l').
Proof.
  induction 1; cbn.
  - constructor.
  - destruct (p x); [constructor|]; assumption.
  - destruct (p x), (p y); try constructor; try reflexivity.
  - etransitivity; eassumption.
Qed.
Lemma filter_all {A} (p : A -> bool) l : (forall i, In i l -> p i = true) -> filter p l = l.
Proof. induction l as [|a l IH]; intros H; cbn; [reflexivity|]. rewrite H by (left; reflexivity). rewrite IH; [reflexivity|]. intros; apply H; right; assumption. Qed.
Lemma filter_none {A} (p : A -> bool) l : (forall i, In i l -> p i = false) -> filter p l = [].
Proof. induction l as [|a l IH]; intros H; cbn; [reflexivity|]. rewrite H by (left; reflexivity). apply IH. intros; apply H; right; assumption. Qed.

Section Res.
Context {T : Type} {N : Num T}.
Variables (d : dims) (xbar p c : list T).
Hypothesis L : length xbar = nxbar d.

Lemma tail_nth i : i < d_hg d -> nth i (tail (d_hg d) xbar) nzero = nth (d_x d + d_bg d + i) xbar nzero.
Proof.
  intros Hi. unfold tail. rewrite L. unfold nxbar.
  rewrite Nat.add_sub. revert L. clear. intros _.
  generalize (d_x d + d_bg d) as n. intros n.
  rewrite <- (firstn_skipn n xbar) at 2.
  destruct (Nat.le_gt_cases (length xbar) n) as [H|H].
  - rewrite skipn_all2 by exact H. rewrite app_nil_r, firstn_all2 by exact H.
    rewrite (nth_overflow xbar) by lia. destruct i; reflexivity.
  - rewrite app_nth2; rewrite firstn_length_le by lia; [|lia]. f_equal. lia.
Qed.


Lemma master_h_val he hg i : i < nz d ->
  c_val (value (master_h d he hg) xbar p c) i =
    if i <? d_he d then c_val (value he (head (d_x d) xbar) p c) i
    else nadd (c_val (value hg (head (d_x d) xbar) p c) (i - d_he d)) (nth (d_x d + d_bg d + (i - d_he d)) xbar nzero).
Proof.
  intros Hi. unfold value, master_h, ccall, cput, cfill. cbn [c_val]. unfold nz in *.
  replace (d_he d + d_hg d - d_hg d) with (d_he d) by lia.
  bsolve; rewrite ?Nat.sub_0_r; try reflexivity.
  rewrite tail_nth by lia. reflexivity.
Qed.
Lemma master_h_ddx he hg i j : i < nz d -> j < nxbar d ->
  c_ddx (value (master_h d he hg) xbar p c) i j =
    if j <? d_x d then (if i <? d_he d then c_ddx (value he (head (d_x d) xbar) p c) i j
                        else c_ddx (value hg (head (d_x d) xbar) p c) (i - d_he d) j)
    else if (d_he d <=? i) && (d_x d + d_bg d <=? j) && (i - d_he d =? j - (d_x d + d_bg d)) then none1 else nzero.
Proof.
  intros Hi Hj. unfold value, master_h, ccall, cput, cfill, midentity, mzeros. cbn [c_ddx]. unfold nz, nxbar in *.
  replace (d_he d + d_hg d - d_hg d) with (d_he d) by lia.
  replace (d_x d + d_bg d + d_hg d - d_hg d) with (d_x d + d_bg d) by lia.
  bsolve; rewrite ?Nat.sub_0_r; try reflexivity.
Qed.
Lemma master_h_ddp he hg i k : i < nz d ->
  c_ddp (value (master_h d he hg) xbar p c) i k =
    if i <? d_he d then c_ddp (value he (head (d_x d) xbar) p c) i k else c_ddp (value hg (head (d_x d) xbar) p c) (i - d_he d) k.
Proof.
  intros Hi. unfold value, master_h, ccall, cput, cfill. cbn [c_ddp]. unfold nz in *.
  replace (d_he d + d_hg d - d_hg d) with (d_he d) by lia.
  bsolve; rewrite ?Nat.sub_0_r; reflexivity.
Qed.
Lemma master_h_ddc he hg i k : i < nz d ->
  c_ddc (value (master_h d he hg) xbar p c) i k =
    if i <? d_he d then c_ddc (value he (head (d_x d) xbar) p c) i k else c_ddc (value hg (head (d_x d) xbar) p c) (i - d_he d) k.
Proof.
  intros Hi. unfold value, master_h, ccall, cput, cfill. cbn [c_ddc]. unfold nz in *.
  replace (d_he d + d_hg d - d_hg d) with (d_he d) by lia.
  bsolve; rewrite ?Nat.sub_0_r; reflexivity.
Qed.
Lemma master_v_val v i : i < d_p d -> c_val (value (master_v d v) xbar p c) i = c_val (value v (head (d_x d) xbar) p c) i.
Proof. intros Hi. unfold value, master_v, ccall, cput, cfill. cbn [c_val]. bsolve. rewrite Nat.sub_0_r. reflexivity. Qed.
Lemma master_v_ddx v i j : i < d_p d -> j < nxbar d -> c_ddx (value (master_v d v) xbar p c) i j =
  if j <? d_x d then c_ddx (value v (head (d_x d) xbar) p c) i j else nzero.
Proof.
  intros Hi Hj. unfold value, master_v, ccall, cput, cfill, mzeros. cbn [c_ddx]. unfold nxbar in *.
  bsolve; rewrite ?Nat.sub_0_r; try reflexivity.
Qed.
Lemma master_v_rest v i k : i < d_p d ->
  c_ddp (value (master_v d v) xbar p c) i k = c_ddp (value v (head (d_x d) xbar) p c) i k /\
  c_ddc (value (master_v d v) xbar p c) i k = c_ddc (value v (head (d_x d) xbar) p c) i k /\
  c_ok (value (master_v d v) xbar p c) = c_ok (value v (head (d_x d) xbar) p c).
Proof.
  intros Hi. unfold value, master_v, ccall, cput, cfill. cbn [c_ddp c_ddc c_ok].
  bsolve; rewrite ?Nat.sub_0_r; repeat split.
Qed.
End Res.

(** ** Sums *)
Section KKT.
Local Open Scope R_scope.

Lemma sum_ext n f g : (forall i, (i < n)%nat -> f i = g i) -> sum n f = sum n g.
Proof. induction n as [|n IH]; intros H; cbn; [reflexivity|]. rewrite IH by (intros; apply H; lia). rewrite H by lia. reflexivity. Qed.
Lemma sum_zero n f : (forall i, (i < n)%nat -> f i = 0) -> sum n f = 0.
Proof. induction n as [|n IH]; intros H; cbn; [reflexivity|]. rewrite IH by (intros; apply H; lia). rewrite H by lia. lra. Qed.
Lemma sum_split a b f : sum (a + b) f = sum a f + sum b (fun i => f (a + i)%nat).
Proof.
  induction b as [|b IH]; cbn; [rewrite Nat.add_0_r; lra|].
  rewrite <- plus_n_Sm. cbn. rewrite IH. lra.
Qed.
Lemma sum_delta n k f : (k < n)%nat -> (forall i, (i < n)%nat -> i <> k -> f i = 0) -> sum n f = f k.
Proof.
  intros Hk H. replace n with (k + (1 + (n - k - 1)))%nat in * by lia.
  rewrite sum_split, sum_split. rewrite (sum_zero k), (sum_zero (n - k - 1)); cbn;
    [rewrite Nat.add_0_r; lra| |]; intros i Hi; apply H; lia.
Qed.

Lemma at_app1 a b i : (i < length a)%nat -> at_ (a ++ b) i = at_ a i.
Proof. intros H. apply app_nth1. exact H. Qed.
Lemma at_app2 a b n i : length a = n -> at_ (a ++ b) (n + i) = at_ b i.
Proof. intros <-. unfold at_. rewrite app_nth2_plus. reflexivity. Qed.
Lemma bd_app1 a b i : (i < length a)%nat -> bd (a ++ b) i = bd a i.
Proof. intros H. apply app_nth1. exact H. Qed.
Lemma bd_repeat a v n m i : length a = n -> (i < m)%nat -> bd (a ++ repeat v m) (n + i) = v.
Proof.
  intros <- Hi. unfold bd. rewrite app_nth2_plus.
  revert i Hi. induction m as [|m IH]; intros i Hi; [lia|]. destruct i; cbn; [reflexivity|]. apply IH. lia.
Qed.

Section Slack.
Variables (f1 f2 f3 : nat -> R) (oAx oAp obc : mat R) (P : problem R xreal) (M : master R xreal).
Let d := p_dims P.
Hypothesis C : conforming P.
Hypothesis U : update_master f1 f2 f3 oAx oAp obc P = Some M.
(** the memory of the block that is not written *)
Hypothesis Z : forall i j, (i < d_be d)%nat -> (d_x d <= j < d_x d + d_bg d)%nat -> mget (mresize f1 oAx (ny d) (nxbar d)) i j = 0.
Variables (x p xbg xhg ye yg ze zg : list R).
Hypothesis Lx : length x = d_x d.
Hypothesis Lbg : length xbg = d_bg d.
Hypothesis Lhg : length xhg = d_hg d.
Let xbar := x ++ xbg ++ xhg.

Lemma Meq : M = Master (nxbar d) (d_p d) (ny d) (nz d) (p_r P)
    (master_f d (uf P)) (master_h d (uhe P) (uhg P)) (master_v d (uv P))
    (master_Ax f1 oAx d (p_Aex P) (p_Agx P)) (master_Ap f2 oAp d (p_Aep P) (p_Agp P))
    (p_be P ++ p_bg P) (master_xlower d (p_xlower P)) (master_xupper d (p_xupper P)) (p_plower P) (p_pupper P)
    (p_c P) (master_bc f3 obc d (p_bec P) (p_bgc P)).
Proof.
  revert U. unfold update_master. fold d.
  destruct (initialized _); cbn [negb]; [|discriminate].
  destruct ((0 <? d_he d)%nat && _); [discriminate|]. destruct ((0 <? d_hg d)%nat && _); [discriminate|].
  destruct ((0 <? d_p d)%nat && _); [discriminate|]. intros E. injection E as <-. reflexivity.
Qed.

Lemma Lbar : length xbar = nxbar d.
Proof. unfold xbar. rewrite !app_length, Lx, Lbg, Lhg. unfold nxbar. lia. Qed.
Lemma Hbar : head (d_x d) xbar = x.
Proof. apply head_app. exact Lx. Qed.
Lemma xbar_x j : (j < d_x d)%nat -> at_ xbar j = at_ x j.
Proof. intros H. apply at_app1. rewrite Lx. exact H. Qed.
Lemma xbar_bg j : (j < d_bg d)%nat -> at_ xbar (d_x d + j) = at_ xbg j.
Proof. intros H. unfold xbar. rewrite at_app2 by exact Lx. apply at_app1. rewrite Lbg. exact H. Qed.
Lemma xbar_hg j : at_ xbar (d_x d + d_bg d + j) = at_ xhg j.
Proof. unfold xbar. rewrite <- Nat.add_assoc, at_app2 by exact Lx. apply at_app2. exact Lbg. Qed.

Lemma Ax_doc i j : (i < ny d)%nat -> (j < nxbar d)%nat -> mget (ms_Ax M) i j = documented_Ax d (p_Aex P) (p_Agx P) i j.
Proof.
  intros Hi Hj. rewrite Meq. cbn [ms_Ax]. rewrite master_Ax_spec by assumption.
  destruct ((i <? d_be d)%nat && _ && _) eqn:E; [|reflexivity].
  apply andb_true_iff in E. destruct E as [E E3]. apply andb_true_iff in E. destruct E as [E1 E2].
  apply Nat.ltb_lt in E1, E3. apply Nat.leb_le in E2. rewrite Z by lia.
  unfold documented_Ax. bsolve. reflexivity.
Qed.
Lemma lin_e i : (i < d_be d)%nat -> lin (nxbar d) (d_p d) (mget (ms_Ax M)) (mget (ms_Ap M)) xbar p i
  = lin (d_x d) (d_p d) (p_Aex P) (p_Aep P) x p i.
Proof.
  intros Hi. assert (Hn : (i < ny d)%nat) by (unfold ny; lia). unfold lin. f_equal.
  - unfold nxbar. rewrite !sum_split.
    rewrite (sum_zero (d_bg d)), (sum_zero (d_hg d)), !Rplus_0_r.
    + apply sum_ext. intros j Hj. rewrite xbar_x, Ax_doc by (unfold nxbar; lia). unfold documented_Ax. bsolve. reflexivity.
    + intros j Hj. rewrite Ax_doc by (unfold nxbar; lia). unfold documented_Ax. bsolve. cbn. lra.
    + intros j Hj. rewrite Ax_doc by (unfold nxbar; lia). unfold documented_Ax. bsolve. cbn. lra.
  - apply sum_ext. intros k Hk. rewrite Meq. cbn [ms_Ap]. rewrite master_Ap_spec by assumption. bsolve. reflexivity.
Qed.
Lemma lin_g i : (i < d_bg d)%nat -> lin (nxbar d) (d_p d) (mget (ms_Ax M)) (mget (ms_Ap M)) xbar p (d_be d + i)
  = lin (d_x d) (d_p d) (p_Agx P) (p_Agp P) x p i + at_ xbg i.
Proof.
  intros Hi. assert (Hn : (d_be d + i < ny d)%nat) by (unfold ny; lia). unfold lin.
  assert (E1 : sum (nxbar d) (fun j => mget (ms_Ax M) (d_be d + i) j * at_ xbar j) = sum (d_x d) (fun j => p_Agx P i j * at_ x j) + at_ xbg i).
  { unfold nxbar. rewrite !sum_split. rewrite (sum_zero (d_hg d)), Rplus_0_r.
    - f_equal.
      + apply sum_ext. intros j Hj. rewrite xbar_x, Ax_doc by (unfold nxbar; lia). unfold documented_Ax. bsolve.
        replace (d_be d + i - d_be d)%nat with i by lia. reflexivity.
      + rewrite (sum_delta (d_bg d) i) by
          (try lia; intros j Hj Hne; rewrite Ax_doc by (unfold nxbar; lia); unfold documented_Ax; bsolve; cbn; lra).
        rewrite Ax_doc, xbar_bg by (unfold nxbar; lia). unfold documented_Ax. bsolve. cbn. lra.
    - intros j Hj. rewrite Ax_doc by (unfold nxbar; lia). unfold documented_Ax. bsolve. cbn. lra. }
  rewrite E1.
  assert (E2 : sum (d_p d) (fun k => mget (ms_Ap M) (d_be d + i) k * at_ p k) = sum (d_p d) (fun k => p_Agp P i k * at_ p k)).
  { apply sum_ext. intros k Hk. rewrite Meq. cbn [ms_Ap]. rewrite master_Ap_spec by assumption. bsolve.
    replace (d_be d + i - d_be d)%nat with i by lia. reflexivity. }
  rewrite E2. lra.
Qed.
Lemma b_e i : (i < d_be d)%nat -> at_ (ms_b M) i = at_ (p_be P) i.
Proof. intros Hi. rewrite Meq. cbn [ms_b]. apply at_app1. destruct C as (-> & _). exact Hi. Qed.
Lemma b_g i : at_ (ms_b M) (d_be d + i) = at_ (p_bg P) i.
Proof. rewrite Meq. cbn [ms_b]. apply at_app2. apply C. Qed.

Lemma h_e i : (i < d_he d)%nat -> c_val (value (ms_h M) xbar p (ms_c M)) i = c_val (value (uhe P) x p (p_c P)) i.
Proof.
  intros Hi. rewrite Meq. cbn [ms_h ms_c]. rewrite master_h_val by (try exact Lbar; unfold nz; lia). bsolve. rewrite Hbar. reflexivity.
Qed.
Lemma h_g i : (i < d_hg d)%nat -> c_val (value (ms_h M) xbar p (ms_c M)) (d_he d + i) = c_val (value (uhg P) x p (p_c P)) i + at_ xhg i.
Proof.
  intros Hi. rewrite Meq. cbn [ms_h ms_c]. rewrite master_h_val by (try exact Lbar; unfold nz; lia). bsolve. rewrite Hbar.
  replace (d_he d + i - d_he d)%nat with i by lia. cbn [nadd Num_R]. f_equal. exact (xbar_hg i).
Qed.

Lemma bounds_split : within (ms_xlower M) (ms_xupper M) xbar <->
  within (p_xlower P) (p_xupper P) x /\ (forall i, (i < d_bg d)%nat -> at_ xbg i <= 0) /\ (forall i, (i < d_hg d)%nat -> at_ xhg i <= 0).
Proof.
  destruct C as (_ & _ & Cl & Cu). fold d in Cl, Cu.
  assert (B1 : forall j, (j < d_x d)%nat -> bd (ms_xlower M) j = bd (p_xlower P) j /\ bd (ms_xupper M) j = bd (p_xupper P) j).
  { intros j Hj. rewrite Meq. cbn [ms_xlower ms_xupper]. split; apply bd_app1; lia. }
  assert (B2 : forall j, (j < d_bg d + d_hg d)%nat -> bd (ms_xlower M) (d_x d + j) = XNInf /\ bd (ms_xupper M) (d_x d + j) = XF 0).
  { intros j Hj. rewrite Meq. cbn [ms_xlower ms_xupper]. split; apply bd_repeat; assumption. }
  assert (LE : forall r, xleb (XF r) (XF 0) = true <-> r <= 0).
  { intros r. cbn. unfold rleb. destruct (Rle_dec r 0); split; intros; try assumption; try reflexivity; [discriminate|contradiction]. }
  split.
  - intros H. split; [|split].
    + intros j Hj. rewrite Lx in Hj. destruct (B1 j Hj) as [<- <-]. rewrite <- xbar_x by exact Hj. apply H. rewrite Lbar. unfold nxbar. lia.
    + intros i Hi. destruct (H (d_x d + i)%nat) as [_ H2]; [rewrite Lbar; unfold nxbar; lia|].
      destruct (B2 i) as [_ E]; [lia|]. rewrite E, xbar_bg in H2 by exact Hi. apply LE. exact H2.
    + intros i Hi. destruct (H (d_x d + d_bg d + i)%nat) as [_ H2]; [rewrite Lbar; unfold nxbar; lia|].
      destruct (B2 (d_bg d + i)%nat) as [_ E]; [lia|]. rewrite Nat.add_assoc in E. rewrite E, xbar_hg in H2. apply LE. exact H2.
  - intros (H1 & H2 & H3) j Hj. rewrite Lbar in Hj. unfold nxbar in Hj.
    destruct (Nat.lt_ge_cases j (d_x d)) as [J|J].
    + destruct (B1 j J) as [-> ->]. rewrite xbar_x by exact J. apply H1. rewrite Lx. exact J.
    + destruct (B2 (j - d_x d)%nat) as [E1 E2]; [lia|]. replace (d_x d + (j - d_x d))%nat with j in E1, E2 by lia.
      rewrite E1, E2. split; [reflexivity|]. apply LE.
      destruct (Nat.lt_ge_cases (j - d_x d) (d_bg d)) as [K|K].
      * replace j with (d_x d + (j - d_x d))%nat by lia. rewrite xbar_bg by exact K. apply H2. exact K.
      * replace j with (d_x d + d_bg d + (j - d_x d - d_bg d))%nat by lia. rewrite xbar_hg. apply H3. lia.
Qed.

Lemma feasible_iff : master_feasible M xbar p <-> user_feasible P x p /\ slacks P x p xbg xhg.
Proof.
  unfold master_feasible, user_feasible, slacks. fold d.
  assert (E : ms_ny M = ny d /\ ms_nz M = nz d /\ ms_nx M = nxbar d /\ ms_np M = d_p d /\ ms_plower M = p_plower P /\ ms_pupper M = p_pupper P)
    by (rewrite Meq; repeat split).
  destruct E as (-> & -> & -> & -> & -> & ->). rewrite bounds_split.
  assert (V : forall i, (i < d_p d)%nat -> c_val (value (ms_v M) xbar p (ms_c M)) i = c_val (value (uv P) x p (p_c P)) i).
  { intros i Hi. rewrite Meq. cbn [ms_v ms_c]. rewrite master_v_val by (first [exact Hi | exact Lbar]). rewrite Hbar. reflexivity. }
  split.
  - intros (H1 & H2 & H3 & (H4 & H5 & H6) & H7).
    assert (G : forall i, (i < d_bg d)%nat -> lin (d_x d) (d_p d) (p_Agx P) (p_Agp P) x p i + at_ xbg i = at_ (p_bg P) i).
    { intros i Hi. rewrite <- lin_g by exact Hi. rewrite <- b_g. apply H1. unfold ny. lia. }
    assert (K : forall i, (i < d_hg d)%nat -> c_val (value (uhg P) x p (p_c P)) i + at_ xhg i = 0).
    { intros i Hi. rewrite <- h_g by exact Hi. apply H2. unfold nz. lia. }
    split; [repeat split|split].
    + intros i Hi. rewrite <- lin_e, <- b_e by exact Hi. apply H1. unfold ny. lia.
    + intros i Hi. specialize (G i Hi). specialize (H5 i Hi). lra.
    + intros i Hi. rewrite <- h_e by exact Hi. apply H2. unfold nz. lia.
    + intros i Hi. specialize (K i Hi). specialize (H6 i Hi). lra.
    + intros i Hi. rewrite <- V by exact Hi. apply H3. exact Hi.
    + apply H4. assumption.
    + apply H4. assumption.
    + apply H7. assumption.
    + apply H7. assumption.
    + intros i Hi. specialize (G i Hi). lra.
    + intros i Hi. specialize (K i Hi). lra.
  - intros ((U1 & U2 & U3 & U4 & U5 & U6 & U7) & S1 & S2). split; [|split; [|split; [|split; [|exact U7]]]].
    + intros i Hi. unfold ny in Hi. destruct (Nat.lt_ge_cases i (d_be d)) as [J|J].
      * rewrite lin_e, b_e by exact J. apply U1. exact J.
      * replace i with (d_be d + (i - d_be d))%nat by lia. rewrite lin_g, b_g, S1 by lia. lra.
    + intros i Hi. unfold nz in Hi. destruct (Nat.lt_ge_cases i (d_he d)) as [J|J].
      * rewrite h_e by exact J. apply U3. exact J.
      * replace i with (d_he d + (i - d_he d))%nat by lia. rewrite h_g, S2 by lia. lra.
    + intros i Hi. rewrite V by exact Hi. apply U5. exact Hi.
    + split; [exact U6|]. split; intros i Hi; [rewrite S1 by exact Hi; specialize (U2 i Hi); lra|rewrite S2 by exact Hi; specialize (U4 i Hi); lra].
Qed.

Hypothesis Lye : length ye = d_be d.
Hypothesis Lyg : length yg = d_bg d.
Hypothesis Lze : length ze = d_he d.
Let w := ye ++ yg ++ ze ++ zg.

Lemma w_ye i : (i < d_be d)%nat -> at_ w i = at_ ye i.
Proof. intros H. apply at_app1. lia. Qed.
Lemma w_yg i : (i < d_bg d)%nat -> at_ w (d_be d + i) = at_ yg i.
Proof. intros H. unfold w. rewrite at_app2 by exact Lye. apply at_app1. lia. Qed.
Lemma w_ze i : (i < d_he d)%nat -> at_ w (ny d + i) = at_ ze i.
Proof. intros H. unfold w, ny. rewrite <- Nat.add_assoc, at_app2 by exact Lye. rewrite at_app2 by exact Lyg. apply at_app1. lia. Qed.
Lemma w_zg i : at_ w (ny d + (d_he d + i)) = at_ zg i.
Proof. unfold w, ny. rewrite <- Nat.add_assoc, at_app2 by exact Lye. rewrite at_app2 by exact Lyg. apply at_app2. exact Lze. Qed.

Definition lag (j : nat) : R := o_fx (ovalue (ms_f M) xbar p (ms_c M)) j
      + sum (ny d) (fun i => mget (ms_Ax M) i j * at_ w i)
      + sum (nz d) (fun i => c_ddx (value (ms_h M) xbar p (ms_c M)) i j * at_ w (ny d + i)).

Lemma fx_eq j : o_fx (ovalue (ms_f M) xbar p (ms_c M)) j = if (j <? d_x d)%nat then o_fx (ovalue (uf P) x p (p_c P)) j else 0.
Proof. rewrite Meq. unfold ovalue, master_f, ocall. cbn [ms_f ms_c o_fx]. rewrite Hbar. reflexivity. Qed.
Lemma hx_eq i j : (i < nz d)%nat -> (j < nxbar d)%nat -> c_ddx (value (ms_h M) xbar p (ms_c M)) i j =
    if (j <? d_x d)%nat then (if (i <? d_he d)%nat then c_ddx (value (uhe P) x p (p_c P)) i j
                        else c_ddx (value (uhg P) x p (p_c P)) (i - d_he d) j)
    else if (d_he d <=? i)%nat && (d_x d + d_bg d <=? j)%nat && (i - d_he d =? j - (d_x d + d_bg d))%nat then 1 else 0.
Proof. intros Hi Hj. rewrite Meq. cbn [ms_h ms_c]. rewrite master_h_ddx by (try exact Lbar; assumption). rewrite Hbar. reflexivity. Qed.

Lemma lag_x j : (j < d_x d)%nat -> lag j = o_fx (ovalue (uf P) x p (p_c P)) j
      + sum (d_be d) (fun i => p_Aex P i j * at_ ye i) + sum (d_bg d) (fun i => p_Agx P i j * at_ yg i)
      + sum (d_he d) (fun i => c_ddx (value (uhe P) x p (p_c P)) i j * at_ ze i)
      + sum (d_hg d) (fun i => c_ddx (value (uhg P) x p (p_c P)) i j * at_ zg i).
Proof.
  intros Hj. unfold lag. rewrite fx_eq. apply Nat.ltb_lt in Hj as Hj'. rewrite Hj'.
  assert (E1 : sum (ny d) (fun i => mget (ms_Ax M) i j * at_ w i) =
    sum (d_be d) (fun i => p_Aex P i j * at_ ye i) + sum (d_bg d) (fun i => p_Agx P i j * at_ yg i)).
  { unfold ny. rewrite sum_split. f_equal; apply sum_ext; intros i Hi.
    - rewrite Ax_doc, w_ye by (unfold ny, nxbar; lia). unfold documented_Ax. bsolve. reflexivity.
    - rewrite Ax_doc, w_yg by (unfold ny, nxbar; lia). unfold documented_Ax. bsolve. replace (d_be d + i - d_be d)%nat with i by lia. reflexivity. }
  assert (E2 : sum (nz d) (fun i => c_ddx (value (ms_h M) xbar p (ms_c M)) i j * at_ w (ny d + i)) =
    sum (d_he d) (fun i => c_ddx (value (uhe P) x p (p_c P)) i j * at_ ze i)
      + sum (d_hg d) (fun i => c_ddx (value (uhg P) x p (p_c P)) i j * at_ zg i)).
  { unfold nz. rewrite sum_split. f_equal; apply sum_ext; intros i Hi.
    - rewrite hx_eq, w_ze by (unfold nz, nxbar; lia). rewrite Hj'. bsolve. reflexivity.
    - rewrite hx_eq, w_zg by (unfold nz, nxbar; lia). rewrite Hj'. bsolve. replace (d_he d + i - d_he d)%nat with i by lia. reflexivity. }
  rewrite E1, E2. lra.
Qed.
Lemma lag_bg j : (j < d_bg d)%nat -> lag (d_x d + j) = at_ yg j.
Proof.
  intros Hj. unfold lag. rewrite fx_eq. bsolve.
  unfold nz. rewrite (sum_zero (d_he d + d_hg d)).
  - unfold ny. rewrite sum_split, sum_zero, (sum_delta (d_bg d) j); try lia.
    + rewrite Ax_doc, w_yg by (unfold ny, nxbar; lia). unfold documented_Ax. bsolve. cbn. lra.
    + intros i Hi Hne. rewrite Ax_doc by (unfold ny, nxbar; lia). unfold documented_Ax. bsolve. cbn. lra.
    + intros i Hi. rewrite Ax_doc by (unfold ny, nxbar; lia). unfold documented_Ax. bsolve. cbn. lra.
  - intros i Hi. rewrite hx_eq by (unfold nz, nxbar; lia). bsolve; lra.
Qed.
Lemma lag_hg j : (j < d_hg d)%nat -> lag (d_x d + d_bg d + j) = at_ zg j.
Proof.
  intros Hj. unfold lag. rewrite fx_eq. bsolve.
  rewrite (sum_zero (ny d)).
  - unfold nz. rewrite sum_split, sum_zero, (sum_delta (d_hg d) j); try lia.
    + rewrite hx_eq, w_zg by (unfold nz, nxbar; lia). bsolve. lra.
    + intros i Hi Hne. rewrite hx_eq by (unfold nz, nxbar; lia). bsolve. lra.
    + intros i Hi. rewrite hx_eq by (unfold nz, nxbar; lia). bsolve; lra.
  - intros i Hi. rewrite Ax_doc by (try assumption; unfold nxbar; lia). unfold documented_Ax. bsolve. cbn. lra.
Qed.

Lemma kkt_iff : master_kkt M xbar p w <-> user_kkt P x p ye yg ze zg /\ slacks P x p xbg xhg.
Proof.
  unfold master_kkt, user_kkt. fold d. rewrite feasible_iff.
  assert (E : ms_ny M = ny d /\ ms_nz M = nz d /\ ms_nx M = nxbar d) by (rewrite Meq; repeat split).
  destruct E as (-> & -> & ->).
  destruct C as (_ & _ & Cl & Cu). fold d in Cl, Cu.
  assert (B1 : forall j, (j < d_x d)%nat -> bd (ms_xlower M) j = bd (p_xlower P) j /\ bd (ms_xupper M) j = bd (p_xupper P) j).
  { intros j Hj. rewrite Meq. cbn [ms_xlower ms_xupper]. split; apply bd_app1; lia. }
  assert (B2 : forall j, (j < d_bg d + d_hg d)%nat -> bd (ms_xlower M) (d_x d + j) = XNInf /\ bd (ms_xupper M) (d_x d + j) = XF 0).
  { intros j Hj. rewrite Meq. cbn [ms_xlower ms_xupper]. split; apply bd_repeat; assumption. }
  split.
  - intros [[UF SL] ST]. split; [|exact SL]. split; [exact UF|]. split; [|split].
    + intros j Hj. rewrite <- lag_x by exact Hj. destruct (B1 j Hj) as [<- <-]. rewrite <- xbar_x by exact Hj.
      apply ST. unfold nxbar. lia.
    + intros i Hi. specialize (ST (d_x d + i)%nat ltac:(unfold nxbar; lia)). fold (lag (d_x d + i)) in ST.
      rewrite lag_bg, xbar_bg in ST by exact Hi. destruct (B2 i ltac:(lia)) as [E1 E2]. rewrite E1, E2 in ST.
      destruct SL as [SL _]. fold d in SL. rewrite SL in ST by exact Hi.
      destruct ST as [S|[[S _]|[S1 S2]]]; [lra|discriminate|]. injection S1 as S1. split; [exact S2|right; lra].
    + intros i Hi. specialize (ST (d_x d + d_bg d + i)%nat ltac:(unfold nxbar; lia)). fold (lag (d_x d + d_bg d + i)) in ST.
      rewrite lag_hg, xbar_hg in ST by exact Hi. destruct (B2 (d_bg d + i)%nat ltac:(lia)) as [E1 E2]. rewrite Nat.add_assoc in E1, E2. rewrite E1, E2 in ST.
      destruct SL as [_ SL]. fold d in SL. rewrite SL in ST by exact Hi.
      destruct ST as [S|[[S _]|[S1 S2]]]; [lra|discriminate|]. injection S1 as S1. split; [exact S2|right; lra].
  - intros [(UF & U1 & U2 & U3) SL]. split; [split; assumption|]. intros j Hj. fold (lag j). unfold nxbar in Hj.
    destruct SL as [SL1 SL2]. fold d in SL1, SL2.
    destruct (Nat.lt_ge_cases j (d_x d)) as [J|J].
    + rewrite lag_x, xbar_x by exact J. destruct (B1 j J) as [-> ->]. apply U1. exact J.
    + destruct (B2 (j - d_x d)%nat) as [E1 E2]; [lia|]. replace (d_x d + (j - d_x d))%nat with j in E1, E2 by lia.
      rewrite E1, E2.
      destruct (Nat.lt_ge_cases (j - d_x d) (d_bg d)) as [K|K].
      * replace j with (d_x d + (j - d_x d))%nat by lia. rewrite lag_bg, xbar_bg, SL1 by exact K.
        destruct (U2 _ K) as [V1 [V2|V2]]; [left; exact V2|right; right]. split; [f_equal; lra|exact V1].
      * replace j with (d_x d + d_bg d + (j - d_x d - d_bg d))%nat by lia. rewrite lag_hg, xbar_hg, SL2 by lia.
        destruct (U3 (j - d_x d - d_bg d)%nat) as [V1 [V2|V2]]; [lia|left; exact V2|right; right]. split; [f_equal; lra|exact V1].
Qed.
End Slack.
End KKT.
