(** Every iterate of a solve in binary64 is finite. *)
From Coq Require Import Reals ZArith List Bool Lia Lra.
From Coq Require Import Floats.SpecFloat.
From Flocq Require Import Core.
From Verif Require Import Num Num_facts Loop_model Loop_spec Loop_proofs Round_spec Float_proofs Round_proofs.
Import ListNotations.
Local Open Scope R_scope.

Definition uptoR (M : R) (x : spec_float) : Prop := isfin x /\ Rabs (V x) <= M.

Notation D := (bpow radix2 900).
Lemma D_1 : 1 <= D. Proof. change 1 with (bpow radix2 0). apply bpow_le. lia. Qed.
Lemma D_big : D * bpow radix2 44 <= bpow radix2 1020.
Proof. rewrite <- bpow_plus. apply bpow_le. lia. Qed.

Lemma uptoR_moderate M x : M <= D * bpow radix2 44 -> uptoR M x -> moderate x.
Proof. intros H [F B]. split; [exact F|]. pose proof D_big. lra. Qed.

Lemma b44 : bpow radix2 44 = 17592186044416. Proof. cbn. lra. Qed.

(** the target of one component *)
Lemma target_ok M o d : 0 <= M <= D * 8796093022208 -> uptoR M o -> uptoR D d ->
  uptoR ((M + D) * (1 + u64)) (nadd o d).
Proof.
  intros HM [Fo Ho] [Fd Hd]. pose proof D_big as DB. rewrite b44 in DB. pose proof D_1.
  assert (T : Rabs (V o + V d) <= M + D) by (eapply Rle_trans; [apply Rabs_triang|lra]).
  destruct (fadd o d Fo Fd) as [F E].
  { pose proof b1020_23. lra. }
  split; [exact F|]. rewrite E.
  destruct (rnd_plus_err _ _ (V_format _ Fo) (V_format _ Fd)) as (e & He & ->).
  rewrite Rabs_mult. apply Rmult_le_compat; try apply Rabs_pos; [exact T|].
  eapply Rle_trans; [apply Rabs_triang|]. rewrite Rabs_R1. lra.
Qed.

(** one component of the mixture *)
Lemma mix_bound b c o v M : near b (XF c) -> 0 <= M <= D * 17592186044416 -> uptoR M o -> uptoR M v ->
  uptoR (M + 16 * u64 * M + 4 * eta64) (mix1 b o v).
Proof.
  intros Nb HM Ho Hv.
  assert (Mo : moderate o) by (apply uptoR_moderate with M; [rewrite b44; lra|exact Ho]).
  assert (Mv : moderate v) by (apply uptoR_moderate with M; [rewrite b44; lra|exact Hv]).
  destruct (mix_ok b c o v Nb Mo Mv) as [F E]. split; [exact F|].
  destruct Nb as (_ & _ & c' & Ec & Ic & _). injection Ec as <-. destruct Ho as [_ Ho], Hv as [_ Hv].
  replace (V (mix1 b o v)) with ((V (mix1 b o v) - ((1 - c) * V o + c * V v)) + ((1 - c) * V o + c * V v)) by ring.
  eapply Rle_trans; [apply Rabs_triang|].
  assert (Rabs ((1 - c) * V o + c * V v) <= M).
  { eapply Rle_trans; [apply Rabs_triang|]. rewrite !Rabs_mult, (Rabs_pos_eq (1 - c)), (Rabs_pos_eq c) by lra.
    pose proof (Rabs_pos (V o)). pose proof (Rabs_pos (V v)). nra. }
  assert (8 * u64 * (Rabs (V o) + Rabs (V v)) <= 16 * u64 * M) by (pose proof u64_pos; nra).
  lra.
Qed.

Lemma grow M : D <= M <= D * 8796093022208 -> 
  let T := (M + D) * (1 + u64) in M <= T <= D * 17592186044416 /\ T + 16 * u64 * T + 4 * eta64 <= M + 2 * D.
Proof.
  intros H T. unfold T. pose proof D_1 as D1. pose proof u64_pos. pose proof u64_val as U. pose proof eta_1. pose proof eta64_pos.
  set (d := D) in *. rewrite U. lra.
Qed.

(** a vector of components without bounds *)
Lemma vec_w b c M o d : near b (XF c) -> D <= M <= D * 8796093022208 -> length d = length o -> Forall (uptoR M) o -> Forall (uptoR D) d ->
  Forall (uptoR (M + 2 * D)) (map2 (mix1 b) o (map2 nadd o d)).
Proof.
  intros Nb HM L Ho Hd. pose proof (grow M HM) as [G1 G2]. cbn zeta in *.
  apply Forall_nth. intros i z Hi. rewrite map2_len in Hi by (rewrite map2_len; lia).
  rewrite nth_m2 by (rewrite ?map2_len; lia). rewrite nth_m2 by lia.
  assert (Oi := Forall_at _ o i z Ho Hi). assert (Di := Forall_at _ d i z Hd ltac:(lia)).
  pose proof D_1.
  assert (T := target_ok M _ _ ltac:(lra) Oi Di).
  assert (O' : uptoR ((M + D) * (1 + u64)) (nth i o z)) by (destruct Oi as [F B]; split; [exact F|lra]).
  destruct (mix_bound b c _ _ ((M + D) * (1 + u64)) Nb ltac:(lra) O' T) as [F B]. split; [exact F|lra].
Qed.
Lemma vec_targets M o d : D <= M <= D * 8796093022208 -> length d = length o -> Forall (uptoR M) o -> Forall (uptoR D) d ->
  Forall (uptoR (M + 2 * D)) (map2 nadd o d) /\ Forall moderate (map2 nadd o d).
Proof.
  intros HM L Ho Hd. pose proof (grow M HM) as [G1 G2]. cbn zeta in *. pose proof D_1.
  assert (A : Forall (uptoR ((M + D) * (1 + u64))) (map2 nadd o d)).
  { apply Forall_nth. intros i z Hi. rewrite map2_len in Hi by lia. rewrite nth_m2 by lia.
    apply target_ok; [lra|apply (Forall_at _ o i z Ho Hi)|apply (Forall_at _ d i z Hd); lia]. }
  split.
  - eapply Forall_impl; [|exact A]. intros a [F B]. split; [exact F|]. pose proof u64_pos. pose proof eta64_pos. nra.
  - eapply Forall_impl; [|exact A]. intros a. apply uptoR_moderate. rewrite b44. lra.
Qed.

Lemma vec_clamp M M' o v lo hi : M <= M' -> length v = length o -> length lo = length o -> length hi = length o ->
  Forall (uptoR M) o -> Forall (uptoR M') v -> Forall valid lo -> Forall valid hi -> within lo o hi ->
  Forall (uptoR M') (clampv v lo hi).
Proof.
  intros HM Lv Ll Lh Ho Hv Wl Wh I. apply Forall_nth. intros i z Hi. rewrite clampv_len in Hi by lia.
  rewrite (nth_indep _ z S754_nan) by (rewrite clampv_len; lia). rewrite nth_clampv by lia.
  assert (Oi := Forall_at _ o i S754_nan Ho ltac:(lia)). assert (Vi := Forall_at _ v i S754_nan Hv ltac:(lia)).
  destruct (within_at lo o hi i I) as [A B]; try lia; [exact (proj1 Oi)|].
  destruct (clamp_round _ 0 _ _ _ (proj1 Vi) (Forall_at _ lo i S754_nan Wl ltac:(lia)) (Forall_at _ hi i S754_nan Wh ltac:(lia)) (proj1 Oi) A B) as (F & Bd & _).
  split; [exact F|]. eapply Rle_trans; [exact Bd|]. destruct Oi as [_ Oi], Vi as [_ Vi]. apply Rmax_lub; lra.
Qed.

Definition bounded_by (M : R) (u : uvec spec_float) : Prop := all_of (uptoR M) u.

Lemma step_bound nx np nw B uo du fx M :
  D <= M <= D * 8796093022208 -> good_bounds nx np B -> valid_bounds B -> sized nx np nw uo -> sized nx np nw du ->
  inbox B uo -> bounded_by M uo -> bounded_by D du ->
  bounded_by (M + 2 * D) (backtrack fx B uo (UVec (map2 nadd (ux uo) (ux du)) (map2 nadd (up uo) (up du)) (map2 nadd (uw uo) (uw du)))).
Proof.
  intros HM G VB (S1 & S2 & S3) (T1 & T2 & T3) [I1 I2] (A1 & A2 & A3) (C1 & C2 & C3).
  pose proof D_1 as D1.
  assert (MM : forall l, Forall (uptoR M) l -> Forall moderate l).
  { intros l H. eapply Forall_impl; [|exact H]. intros a. apply uptoR_moderate. rewrite b44. lra. }
  destruct (vec_targets M (ux uo) (ux du) HM ltac:(lia) A1 C1) as [X1 Y1].
  destruct (vec_targets M (up uo) (up du) HM ltac:(lia) A2 C2) as [X2 Y2].
  destruct (vec_targets M (uw uo) (uw du) HM ltac:(lia) A3 C3) as [X3 Y3].
  set (u := UVec _ _ _).
  pose proof (betamin_near nx np B uo u G VB (conj (MM _ A1) (conj (MM _ A2) (MM _ A3))) (conj Y1 (conj Y2 Y3))) as Nb.
  destruct G as (G1 & G2 & G3 & G4). apply F2_len in G3. apply F2_len in G4.
  destruct VB as (V1 & V2 & V3 & V4).
  unfold backtrack, bounded_by, all_of. destruct fx.
  - cbn [clampu ux up uw u]. split; [|split; [|exact X3]].
    + apply (vec_clamp M _ (ux uo)); auto; rewrite ?map2_len; try lia; lra.
    + apply (vec_clamp M _ (up uo)); auto; rewrite ?map2_len; try lia; lra.
  - assert (Nb' := Nb). destruct Nb' as (_ & _ & c & E & _). rewrite E in Nb. set (b := betamin B uo u) in *.
    cbn [clampu mix ux up uw u]. split; [|split].
    + apply (vec_clamp M _ (ux uo)); auto; rewrite ?map2_len; rewrite ?map2_len; try lia; [lra|]. apply vec_w with c; auto; lia.
    + apply (vec_clamp M _ (up uo)); auto; rewrite ?map2_len; rewrite ?map2_len; try lia; [lra|]. apply vec_w with c; auto; lia.
    + apply vec_w with c; auto; lia.
Qed.

Section Run.
Variable W : Type.
Variable fupdate : W -> uvec spec_float -> W.
Variable ferror : W -> uvec spec_float -> spec_float.
Variable newton : W -> W * uvec spec_float.
Variable check : option (W -> uvec spec_float -> uvec spec_float -> spec_float -> nat -> bool).
Variables nx np nw : nat.
Variable B : bounds spec_float.
Hypothesis GB : good_bounds nx np B.
Hypothesis VB : valid_bounds B.
Hypothesis NS : forall w, sized nx np nw (snd (newton w)).
Hypothesis ND : forall w, all_of (upto 900) (snd (newton w)).
Notation step := (step W fupdate ferror newton None).
Notation loop := (loop W fupdate ferror newton None check).

Lemma step_u o s : exists du, s_u (step B o s) = backtrack (o_fix o) B (s_uo s)
    (UVec (map2 nadd (ux (s_uo s)) (ux du)) (map2 nadd (up (s_uo s)) (up du)) (map2 nadd (uw (s_uo s)) (uw du))) /\
  sized nx np nw du /\ bounded_by D du.
Proof.
  unfold step, newton_apply. cbn [s_w s_uo]. pose proof (NS (s_w s)) as S. pose proof (ND (s_w s)) as N.
  destruct (newton (s_w s)) as [w du]. exists du. split; [reflexivity|]. split; [exact S|exact N].
Qed.

Definition level (k : nat) : R := D * (2 * INR k + 1).

Lemma bounded_fin M u : bounded_by M u -> all_of isfin u.
Proof. intros (A & C & E). repeat split; (eapply Forall_impl; [|eassumption]); intros a [F _]; exact F. Qed.

Lemma loop_fin fuel o s s' : (Z.of_nat (o_maxiters o) <= 2 ^ 40)%Z -> loop fuel B o s = Some s' -> (s_iters s <= o_maxiters o)%nat ->
  sized nx np nw (s_uo s) -> inbox B (s_uo s) -> bounded_by (level (s_iters s)) (s_uo s) ->
  Forall (all_of isfin) (s_iterates s) -> Forall (all_of isfin) (s_iterates s').
Proof.
  intros HM. revert s. induction fuel as [|fuel IH]; intros s; [discriminate|]. cbn [Loop_model.loop]. intros E HI SZ IB BB AF.
  pose proof (step_frame W fupdate ferror newton None B o s) as F. cbn zeta in F. destruct F as (_ & F2 & _ & F4 & _).
  destruct (step_u o s) as (du & EU & SD & BD).
  assert (L : D <= level (s_iters s) <= D * 8796093022208).
  { unfold level. pose proof D_1. pose proof (pos_INR (s_iters s)).
    assert (INR (s_iters s) <= 1099511627776). { rewrite INR_IZR_INZ. apply IZR_le. lia. }
    split; nra. }
  assert (BN : bounded_by (level (S (s_iters s))) (s_u (step B o s))).
  { replace (level (S (s_iters s))) with (level (s_iters s) + 2 * D) by (unfold level; rewrite S_INR; ring).
    rewrite EU. eapply step_bound; eauto. }
  assert (SN : sized nx np nw (s_u (step B o s))).
  { rewrite EU. apply backtrack_sized; auto. destruct SZ as (A1 & A2 & A3), SD as (D1 & D2 & D3).
    repeat split; cbn [ux up uw]; rewrite map2_len; lia. }
  assert (IN : inbox B (s_u (step B o s))) by (rewrite EU; eapply backtrack_inbox; eauto).
  pose proof (stepping_frame W check o (step B o s)) as G.
  destruct (stepping W check o (step B o s)) as [s1 c].
  destruct G as (_ & G2 & _ & G4 & _ & _ & G7 & Gc & _).
  assert (A1 : Forall (all_of isfin) (s_iterates s1)).
  { rewrite G7, F4. constructor; [|exact AF]. eapply bounded_fin; eauto. }
  destruct c; [|injection E as <-; exact A1].
  destruct (Gc eq_refl) as (C1 & C2 & _).
  apply (IH s1 E); rewrite ?C2, ?G2, ?G4; auto. rewrite F2. exact BN.
Qed.
End Run.

(** ** A step fraction of zero: nothing moves *)
Lemma zero_fraction b o v : isfin b -> V b = 0 -> moderate o -> moderate v -> isfin (mix1 b o v) /\ V (mix1 b o v) = V o.
Proof.
  intros Fb Z [Fo Ho] [Fv Hv]. destruct one_fin as [F1 E1].
  assert (B0 : bpow radix2 0 <= bpow radix2 1023) by (apply bpow_le; lia). change (bpow radix2 0) with 1 in B0.
  destruct (fsub none1 b F1 Fb) as [Fg Eg]. { rewrite E1, Z, Rminus_0_r, Rabs_R1. exact B0. }
  rewrite E1, Z, Rminus_0_r, rnd_1 in Eg.
  destruct (fmul (nsub none1 b) o Fg Fo) as [F2 E2]. { rewrite Eg, Rmult_1_l. pose proof b1020_23. lra. }
  rewrite Eg, Rmult_1_l, rnd_V in E2 by assumption.
  destruct (fmul b v Fb Fv) as [F3 E3]. { rewrite Z, Rmult_0_l, Rabs_R0. lra. }
  rewrite Z, Rmult_0_l, rnd_0 in E3.
  destruct (fadd _ _ F2 F3) as [F4 E4]. { rewrite E2, E3, Rplus_0_r. pose proof b1020_23. lra. }
  rewrite E2, E3, Rplus_0_r, rnd_V in E4 by assumption. unfold mix1. split; [exact F4|exact E4].
Qed.

(** ** A set of points that the iteration never leaves and at which it never converges *)
Section Trapped.
Context {T : Type} {N : Num T}.
Variables t1 t2 : T.
Variable o : options T.
Variable pts : list (uvec T).
Notation next u := (backtrack (o_fix o) q_bounds u
  (UVec (map2 nadd (ux u) (map2 nsub [t1; t2] (ux u))) (map2 nadd (up u) []) (map2 nadd (uw u) []))).
Hypothesis stay : forall u, In u pts -> In (next u) pts.
Hypothesis bad : forall u w, In u pts -> nltb (q_error t1 t2 w u) (o_tol o) = false.

Lemma q_loop fuel s s' : loop (uvec T) q_update (q_error t1 t2) (q_newton t1 t2) None None fuel q_bounds o s = Some s' ->
  s_w s = s_uo s -> In (s_uo s) pts -> (o_maxiters o < s_iters s')%nat /\ In (s_u s') pts.
Proof.
  revert s. induction fuel as [|fuel IH]; intros s; [discriminate|]. cbn [Loop_model.loop]. intros E HW HI.
  set (s1 := step _ _ _ _ _ _ _ _) in E.
  assert (HU : s_u s1 = next (s_uo s)) by (unfold s1, step, newton_apply, q_newton; rewrite <- HW; reflexivity).
  assert (W1 : s_w s1 = s_u s1) by reflexivity.
  assert (E1 : s_err s1 = q_error t1 t2 (s_w s1) (s_u s1)) by reflexivity.
  assert (I1 : In (s_u s1) pts) by (rewrite HU; apply stay; exact HI).
  unfold stepping in E. cbn [s_iters] in E. destruct (Nat.ltb_spec (o_maxiters o) (s_iters s1)) as [L|L].
  - injection E as <-. cbn [s_iters s_u]. split; [exact L|exact I1].
  - unfold converged in E. cbn [s_err] in E. rewrite E1, bad in E by exact I1. cbn [negb] in E.
    apply (IH _ E); cbn [s_w s_uo]; [exact W1|exact I1].
Qed.
Lemma q_never fuel x1 x2 r s : In (clampu q_bounds (UVec [x1; x2] [] [])) pts ->
  q_solve t1 t2 fuel o x1 x2 = Some (r, s) -> r_succeeded r = false /\ In (s_u s) pts.
Proof.
  intros H. unfold q_solve, solve. destruct (loop _ _ _ _ _ _ _ _ _) as [s'|] eqn:E; [|discriminate].
  intros Q. injection Q as <- <-. destruct (q_loop _ _ _ E) as [L I]; [reflexivity|exact H|].
  cbn [r_succeeded]. split; [apply Nat.leb_gt; exact L|exact I].
Qed.
End Trapped.

Lemma clamp_id lo hi o : nleb lo (XF o) = true -> nleb (XF o) hi = true -> clamp1 (XF o) lo hi = XF o.
Proof.
  intros L H. unfold clamp1.
  assert (E : nmax (XF o) lo = XF o).
  { destruct lo as [l| | |]; try discriminate; unfold nmax; cbn in *; [|reflexivity].
    unfold rltb, rleb in *. destruct (Rle_dec l o), (Rlt_dec o l); try discriminate; [lra|reflexivity]. }
  rewrite E. destruct hi as [h| | |]; try discriminate; unfold nmin; cbn in *; [|reflexivity].
  unfold rltb, rleb in *. destruct (Rle_dec o h), (Rlt_dec h o); try discriminate; [lra|reflexivity].
Qed.
Lemma zero_clamped b o v lo hi i : isfin b -> V b = 0 -> Forall moderate o -> Forall moderate v -> Forall valid lo -> Forall valid hi ->
  within lo o hi -> length v = length o -> length lo = length o -> length hi = length o -> (i < length o)%nat ->
  V (nth i (clampv (map2 (mix1 b) o v) lo hi) S754_nan) = V (nth i o S754_nan).
Proof.
  intros Fb Z Mo Mv Wl Wh I Lv Ll Lh Hi. rewrite nth_clampv by (rewrite map2_len; lia). rewrite nth_m2 by lia.
  pose proof (Forall_at _ o i S754_nan Mo Hi) as Oi. pose proof (Forall_at _ v i S754_nan Mv ltac:(lia)) as Vi.
  pose proof (Forall_at _ lo i S754_nan Wl ltac:(lia)) as W1. pose proof (Forall_at _ hi i S754_nan Wh ltac:(lia)) as W2.
  destruct (zero_fraction b _ _ Fb Z Oi Vi) as [F E].
  destruct (within_at lo o hi i I) as [A B]; try lia; [exact (proj1 Oi)|].
  destruct (clamp_round _ (V (nth i o S754_nan)) _ _ _ F W1 W2 (proj1 Oi) A B) as (_ & _ & c & Ec & D).
  pose proof (isfin_valid _ (proj1 Oi)) as W3.
  rewrite xleb_of in A, B by assumption. rewrite (xof_fin _ (proj1 Oi)) in A, B.
  rewrite clamp_id in Ec by assumption. injection Ec as <-. rewrite E, (Rminus_diag_eq (V (nth i o S754_nan))), Rabs_R0 in D by reflexivity.
  pose proof (Rabs_pos (V (clamp1 (mix1 b (nth i o S754_nan) (nth i v S754_nan)) (nth i lo S754_nan) (nth i hi S754_nan)) - V (nth i o S754_nan))).
  apply Rminus_diag_uniq. destruct (Req_dec (V (clamp1 (mix1 b (nth i o S754_nan) (nth i v S754_nan)) (nth i lo S754_nan) (nth i hi S754_nan)) - V (nth i o S754_nan)) 0) as [Q|Q]; [exact Q|].
  apply Rabs_no_R0 in Q. lra.
Qed.
