(** Property theorems C93: the steps of the solver in double precision. *)
From Coq Require Import Reals ZArith List Bool Lia Lra.
From Coq Require Import Floats.SpecFloat.
From Flocq Require Import Core.
From Verif Require Import Num Num_facts Minimize_model Loop_model Loop_spec Loop_proofs Backtrack_proofs.
From Verif Require Import Round_spec Float_proofs Round_proofs RoundRun_proofs P_Loop.
Import ListNotations.

(** m * 2^e as a double *)
Definition f64 (m e : Z) : spec_float := binary_normalize prec64 emax64 m e false.

(** ** The backtracking step.  uo is finite and within its bounds, u is finite, entries up to
    2^1020.  There is a fraction b, the one of C51 (the largest for which no variable leaves its
    bounds), such that every entry of the computed point is a finite number that is within its
    bounds and within a few units in the last place of the exact one. *)
Definition follows (b : R) (o v lo hi r : list spec_float) : Prop :=
  length r = length o /\ forall i, i < length o ->
    let l := nth i lo S754_nan in let h := nth i hi S754_nan in let oi := nth i o S754_nan in let vi := nth i v S754_nan in
    let ri := nth i r S754_nan in
    let tol := (bpow radix2 (-50) * (Rabs (V oi) + Rabs (V vi)) + bpow radix2 (-1073))%R in
    isfin ri /\ nleb l ri = true /\ nleb ri h = true /\
    (blocked (xof l) (xof h) (V oi) (V vi) -> (Rabs (V ri - V oi) <= tol)%R) /\
    (~ blocked (xof l) (xof h) (V oi) (V vi) -> (Rabs (V ri - lin b (V oi) (V vi)) <= tol)%R).

Lemma xof_V l : Forall isfin l -> map xof l = map XF (map V l).
Proof. induction 1; cbn; [reflexivity|]. rewrite IHForall, (xof_fin x) by assumption. reflexivity. Qed.
Lemma upto_fin e l : Forall (upto e) l -> Forall isfin l.
Proof. intros H. eapply Forall_impl; [|exact H]. intros a [F _]. exact F. Qed.

Lemma follows_of b o v lo hi r e : Forall isfin o -> length v = length o -> length lo = length o -> length hi = length o ->
  within lo r hi -> rounded o v r e ->
  moved b (map V o) (map V v) (map xof lo) (map xof hi) e -> follows b o v lo hi r.
Proof.
  intros Fo Lv Ll Lh I (L1 & L2 & R) (M1 & M). rewrite map_length in *. split; [exact L1|]. intros i Hi. cbn zeta.
  destruct (R i Hi) as (c & F & E & D). destruct (M i Hi) as [MB MN].
  rewrite !nth_xof in MB, MN.
  change 0%R with (V S754_nan) in MB, MN. rewrite !map_nth in MB, MN.
  destruct (within_at lo r hi i I) as [A B]; try lia; [exact F|].
  repeat split; auto; try apply F.
  - intros H. specialize (MB H). rewrite E in MB. injection MB as ->. exact D.
  - intros H. destruct (MN H) as [MN' _]. rewrite E in MN'. injection MN' as ->. exact D.
Qed.

Lemma V_inside lo o hi : Forall isfin o -> Forall valid lo -> Forall valid hi -> length lo = length o -> length hi = length o -> within lo o hi ->
  all_inside (map xof lo) (map xof hi) (map V o).
Proof.
  intros Fo Wl Wh Ll Lh I i Hi. rewrite map_length in Hi. rewrite !nth_xof. change 0%R with (V S754_nan). rewrite map_nth.
  pose proof (Forall_at _ o i S754_nan Fo Hi) as Fi.
  destruct (within_at lo o hi i I Ll Lh Hi Fi) as [A B].
  pose proof (Forall_at _ lo i S754_nan Wl ltac:(lia)) as W1. pose proof (Forall_at _ hi i S754_nan Wh ltac:(lia)) as W2.
  pose proof (isfin_valid _ Fi) as W3.
  rewrite xleb_of in A, B by assumption. rewrite (xof_fin _ Fi) in A, B. split; assumption.
Qed.

Theorem C93_backtrack : forall nx np nw B (uo u : uvec spec_float),
  good_bounds nx np B -> valid_bounds B -> sized nx np nw uo -> sized nx np nw u ->
  inbox B uo -> all_of (upto 1020) uo -> all_of (upto 1020) u ->
  exists b, let u' := backtrack false B uo u in
    (0 < b <= 1)%R /\ follows b (ux uo) (ux u) (xlo B) (xhi B) (ux u') /\ follows b (up uo) (up u) (plo B) (phi_ B) (up u') /\
    length (uw u') = length (uw uo) /\
    (forall i, i < length (uw uo) -> isfin (nth i (uw u') S754_nan) /\
       (Rabs (V (nth i (uw u') S754_nan) - lin b (V (nth i (uw uo) S754_nan)) (V (nth i (uw u) S754_nan))) <=
        bpow radix2 (-50) * (Rabs (V (nth i (uw uo) S754_nan)) + Rabs (V (nth i (uw u) S754_nan))) + bpow radix2 (-1073))%R) /\
    (b = 1%R \/ forall b', (b < b')%R ->
       overshoots b' (map V (ux uo)) (map V (ux u)) (map xof (xlo B)) (map xof (xhi B)) \/
       overshoots b' (map V (up uo)) (map V (up u)) (map xof (plo B)) (map xof (phi_ B))).
Proof.
  intros nx np nw B uo u G VB So Su I Ao Au.
  pose proof (backtrack_round nx np nw B uo u G VB So Su I Ao Au) as R. cbn zeta in R.
  pose proof (backtrack_inbox B nx np false uo u G) as [IX IP].
  destruct (good_lengths _ _ _ G) as (G1 & G2 & G3 & G4).
  destruct So as (S1 & S2 & S3), Su as (T1 & T2 & T3), I as [I1 I2], VB as (V1 & V2 & V3 & V4).
  destruct Ao as (A1 & A2 & A3), Au as (C1 & C2 & C3). apply upto_fin in A1, A2, A3, C1, C2, C3.
  destruct (C51_backtrack (map V (ux uo)) (map V (ux u)) (map V (up uo)) (map V (up u)) (map V (uw uo)) (map V (uw u)) (xbounds B))
    as (b & Hb & MX & MP & LW & MW & OV); cbn [xbounds xlo xhi plo phi_]; rewrite ?map_length; try lia.
  { apply V_inside; auto; lia. } { apply V_inside; auto; lia. }
  exists b. cbn zeta.
  replace (fin (map V (ux uo)) (map V (up uo)) (map V (uw uo))) with (xvec uo) in * by (unfold xvec, fin; rewrite !xof_V by assumption; reflexivity).
  replace (fin (map V (ux u)) (map V (up u)) (map V (uw u))) with (xvec u) in * by (unfold xvec, fin; rewrite !xof_V by assumption; reflexivity).
  destruct R as (RX & RP & RW).
  cbn [xbounds xlo xhi plo phi_] in MX, MP, OV. fold (xbounds B) in MX, MP.
  split; [exact Hb|]. split; [eapply follows_of; eauto; lia|]. split; [eapply follows_of; eauto; lia|].
  destruct RW as (L1 & L2 & RW). split; [exact L1|]. split; [|exact OV].
  intros i Hi. destruct (RW i Hi) as (c & F & E & D). split; [exact F|].
  rewrite map_length in MW. specialize (MW i Hi). change 0%R with (V S754_nan) in MW. rewrite !map_nth in MW.
  rewrite E in MW. injection MW as ->. exact D.
Qed.
Print Assumptions C93_backtrack.

(** ** Every iterate is finite.  Newton directions with finite entries up to 2^900, a starting
    point with entries up to 2^900 after it has been put within the bounds, at most 2^40
    iterations, any user functions and convergence check, no transformation. *)
Theorem C93_finite : forall W fupdate ferror newton check nx np nw B o fuel (w : W) hist u r s,
  good_bounds nx np B -> valid_bounds B -> sized nx np nw u ->
  (forall w, sized nx np nw (snd (newton w))) -> (forall w, all_of (upto 900) (snd (newton w))) ->
  all_of (upto 900) (clampu B u) -> (Z.of_nat (o_maxiters o) <= 2 ^ 40)%Z ->
  solve W fupdate ferror newton None check fuel B o w hist u = Some (r, s) ->
  Forall (all_of isfin) (s_iterates s) /\ all_of isfin (s_u s).
Proof.
  intros W fupdate ferror newton check nx np nw B o fuel w hist u r s G VB SU NS ND AU HM. unfold solve.
  destruct (loop _ _ _ _ _ _ _ _ _ _) as [s'|] eqn:E; [|discriminate]. intros H. injection H as _ <-.
  assert (F : Forall (all_of isfin) (s_iterates s')).
  { eapply loop_fin with (nx := nx) (np := np) (nw := nw); eauto; cbn [initialize update s_iters s_uo s_iterates].
    - lia.
    - apply clampu_sized; assumption.
    - apply clampu_inbox with nx np. exact G.
    - unfold level. cbn [INR]. replace (bpow radix2 900 * (2 * 0 + 1))%R with (bpow radix2 900) by ring. exact AU.
    - constructor; [|constructor]. eapply bounded_fin with (M := bpow radix2 900). exact AU. }
  split; [exact F|].
  apply loop_final in E; [|cbn; lia|reflexivity|discriminate].
  destruct E as (_ & _ & _ & older & errs & E & _). rewrite E in F. inversion F. assumption.
Qed.
Print Assumptions C93_finite.

(** x1 and x2 of [q_solve] started at (1, 0), target (-25.75, 1): the hypotheses hold. *)
Example C93_case : let B : bounds spec_float := q_bounds in let u := UVec [f64 1 0; f64 0 0] [] [] in
  good_bounds 2 0 B /\ valid_bounds B /\ sized 2 0 0 u /\ all_of (upto 900) (clampu B u) /\ inbox B u.
Proof.
  assert (U1 : upto 900 (f64 1 0)).
  { split; [split; reflexivity|]. replace (V (f64 1 0)) with 1%R by (unfold V; cbn; unfold F2R; cbn; lra).
    rewrite Rabs_R1. change 1%R with (bpow radix2 0). apply bpow_le. lia. }
  assert (U0 : upto 900 (f64 0 0)).
  { split; [split; reflexivity|]. replace (V (f64 0 0)) with 0%R by reflexivity. rewrite Rabs_R0. apply bpow_ge_0. }
  cbn zeta. split; [|split; [|split; [|split]]].
  - repeat split; repeat constructor.
  - repeat split; repeat constructor.
  - repeat split.
  - change (clampu q_bounds _) with (UVec [f64 1 0; f64 0 0] [] []). split; [|split; constructor].
    constructor; [exact U1|constructor; [exact U0|constructor]].
  - split; intros i Hi; [|cbn in Hi; lia]. destruct i as [|[|i]]; [right; split; reflexivity..|cbn in Hi; lia].
Qed.

(** and so does the hypothesis on the directions, with a direction that leads from (1, 0) to the target. *)
Example C93_finite_case : let d := UVec [f64 (-107) (-2); f64 1 0] [] [] in sized 2 0 0 d /\ all_of (upto 900) d /\
  exists r s, solve unit (fun w _ => w) (fun _ _ => none1) (fun w => (w, d)) None None 9 q_bounds (Options 5 (f64 1 (-20)) false) tt []
    (UVec [f64 1 0; f64 0 0] [] []) = Some (r, s).
Proof.
  cbn zeta. split; [repeat split|]. split; [|eexists; eexists; vm_compute; reflexivity].
  split; [|split; constructor]. constructor; [|constructor; [|constructor]].
  - split; [split; reflexivity|]. replace (V (f64 (-107) (-2))) with (- (107 / 4))%R by (unfold V; cbn; unfold F2R; cbn; lra).
    apply Rle_trans with (bpow radix2 5); [|apply bpow_le; lia]. cbn. apply Rabs_le. lra.
  - split; [split; reflexivity|]. replace (V (f64 1 0)) with 1%R by (unfold V; cbn; unfold F2R; cbn; lra).
    rewrite Rabs_R1. change 1%R with (bpow radix2 0). apply bpow_le. lia.
Qed.

(** Without the limit on the magnitudes the claim fails: x = 10^308 (bound 1.5 10^308), Newton
    direction 10^308.  All are finite doubles.  x + dx overflows, the fraction is 0, and the next
    iterate is NaN. *)
Definition big : spec_float := f64 5000000000000000 971.
Theorem C93_overflow_refuted : let B := Bounds [nzero] [f64 7500000000000000 971] [] [] in
  let o := Options 1 (f64 1 (-20)) false in
  nfinite big = true /\ nltb nzero big = true /\ nltb big (f64 7500000000000000 971) = true /\
  nfinite (f64 7500000000000000 971) = true /\
  exists r s, solve unit (fun w _ => w) (fun _ _ => none1) (fun w => (w, UVec [big] [] [])) None None 5 B o tt [] (UVec [big] [] []) = Some (r, s) /\
    ux (s_u s) = [S754_nan].
Proof.
  cbn zeta. repeat (split; [vm_compute; reflexivity|]).
  eexists. eexists. split; [vm_compute; reflexivity|]. vm_compute. reflexivity.
Qed.
Print Assumptions C93_overflow_refuted.

(** ** What C51 promises and double precision breaks.  A variable that sits on its upper bound 5
    and whose Newton target 5.875 lies beyond it leaves the bound, away from its target: another
    variable moves from 3 * 2^-53 to its lower bound 0. *)
Theorem C93_blocked_leaves_refuted : let B := Bounds [nzero; nopp ninf] [ninf; f64 5 0] [] [] in
  let u' := backtrack false B (UVec [f64 3 (-53); f64 5 0] [] []) (UVec [f64 (-5) 0; f64 47 (-3)] [] []) in
  nltb (nth 1 (ux u') S754_nan) (f64 5 0) = true.
Proof. vm_compute. reflexivity. Qed.
Print Assumptions C93_blocked_leaves_refuted.

(** The variable that stops the step is not put on its bound: from 1 towards -25.75 with bound 0. *)
Theorem C93_misses_bound_refuted : let u' := backtrack false q_bounds (UVec [f64 1 0; f64 0 0] [] []) (UVec [f64 (-103) (-2); f64 1 0] [] []) in
  nltb nzero (nth 0 (ux u') S754_nan) = true.
Proof. vm_compute. reflexivity. Qed.
Print Assumptions C93_misses_bound_refuted.

(** A step fraction that is rounded to 0 stops every variable: the new point is the old one. *)
Theorem C93_zero_fraction : forall nx np nw B (uo u : uvec spec_float),
  good_bounds nx np B -> valid_bounds B -> sized nx np nw uo -> sized nx np nw u -> inbox B uo ->
  all_of (upto 1020) uo -> all_of (upto 1020) u -> isfin (betamin B uo u) -> V (betamin B uo u) = 0%R ->
  let u' := backtrack false B uo u in
  map V (ux u') = map V (ux uo) /\ map V (up u') = map V (up uo) /\ map V (uw u') = map V (uw uo).
Proof.
  intros nx np nw B uo u G VB (S1 & S2 & S3) (T1 & T2 & T3) [I1 I2] (A1 & A2 & A3) (C1 & C2 & C3) F Z.
  destruct (good_lengths _ _ _ G) as (G1 & G2 & G3 & G4), VB as (V1 & V2 & V3 & V4).
  cbn zeta. cbn [backtrack clampu mix ux up uw].
  split; [|split]; apply nth_ext with (d := V S754_nan) (d' := V S754_nan);
    rewrite ?map_length, ?clampv_len, ?map2_len; try (rewrite ?map2_len; lia); intros i Hi; rewrite !map_nth.
  - apply zero_clamped; auto; lia.
  - apply zero_clamped; auto; lia.
  - rewrite nth_m2 by lia. apply zero_fraction; auto.
    + exact (Forall_at _ _ i S754_nan A3 Hi).
    + apply (Forall_at _ _ i S754_nan C3). lia.
Qed.
Print Assumptions C93_zero_fraction.

(** ** The solver is frozen by rounding.  The problem of [q_solve], started at (1, 0) with target
    (-25.75, 1), tolerance 2^-20.  In exact arithmetic it is solved in two iterations: the first
    puts x1 on its bound, the second x2 at 1.  In double precision, for every iteration limit,
    the solve fails: x1 comes down to 3.5 10^-323, is never 0, and x2 stays below 0.04. *)
Definition frozen_run : list (uvec spec_float) :=
  let next u := backtrack false q_bounds u (UVec (map2 nadd (ux u) (map2 nsub [f64 (-103) (-2); f64 1 0] (ux u))) [] []) in
  let fix go n u := match n with 0 => [u] | S k => u :: go k (next u) end in go 25 (UVec [f64 1 0; f64 0 0] [] []).
Definition sf_eqb (a b : spec_float) : bool :=
  match a, b with
  | S754_zero s, S754_zero t | S754_infinity s, S754_infinity t => eqb s t
  | S754_nan, S754_nan => true
  | S754_finite s m e, S754_finite t n f => eqb s t && Pos.eqb m n && Z.eqb e f
  | _, _ => false
  end.
Fixpoint sfs_eqb (a b : list spec_float) : bool :=
  match a, b with [], [] => true | x :: a, y :: b => sf_eqb x y && sfs_eqb a b | _, _ => false end.
Definition u_eqb (a b : uvec spec_float) : bool := sfs_eqb (ux a) (ux b) && sfs_eqb (up a) (up b) && sfs_eqb (uw a) (uw b).
Lemma sf_eqb_eq a b : sf_eqb a b = true -> a = b.
Proof.
  destruct a, b; cbn; try discriminate; intros H; try (apply eqb_prop in H; subst; reflexivity); [reflexivity|].
  apply andb_prop in H as [H H3]. apply andb_prop in H as [H1 H2].
  apply eqb_prop in H1. apply Pos.eqb_eq in H2. apply Z.eqb_eq in H3. subst. reflexivity.
Qed.
Lemma sfs_eqb_eq a : forall b, sfs_eqb a b = true -> a = b.
Proof.
  induction a as [|x a IH]; intros [|y b]; cbn; try discriminate; intros H; [reflexivity|].
  apply andb_prop in H as [H1 H2]. apply sf_eqb_eq in H1. apply IH in H2. subst. reflexivity.
Qed.
Lemma u_eqb_eq a b : u_eqb a b = true -> a = b.
Proof.
  destruct a, b. unfold u_eqb. cbn. intros H. apply andb_prop in H as [H H3]. apply andb_prop in H as [H1 H2].
  apply sfs_eqb_eq in H1, H2, H3. subst. reflexivity.
Qed.
Definition frozen_next (u : uvec spec_float) : uvec spec_float :=
  backtrack false q_bounds u (UVec (map2 nadd (ux u) (map2 nsub [f64 (-103) (-2); f64 1 0] (ux u))) (map2 nadd (up u) []) (map2 nadd (uw u) [])).
Lemma frozen_stays u : In u frozen_run -> In (frozen_next u) frozen_run.
Proof.
  assert (E : forallb (fun u => existsb (u_eqb (frozen_next u)) frozen_run) frozen_run = true) by (vm_compute; reflexivity).
  rewrite forallb_forall in E. intros Hu. specialize (E u Hu). apply existsb_exists in E as (v & I & Q).
  apply u_eqb_eq in Q. rewrite Q. exact I.
Qed.
Lemma frozen_low u : In u frozen_run -> nltb (nth 1 (ux u) S754_nan) (f64 1 (-4)) = true.
Proof.
  assert (E : forallb (fun u => nltb (nth 1 (ux u) S754_nan) (f64 1 (-4))) frozen_run = true) by (vm_compute; reflexivity).
  rewrite forallb_forall in E. exact (E u).
Qed.
Lemma frozen_bad u : In u frozen_run -> negb (nltb (q_error (f64 (-103) (-2)) (f64 1 0) u u) (f64 1 (-20))) = true.
Proof.
  assert (E : forallb (fun u => negb (nltb (q_error (f64 (-103) (-2)) (f64 1 0) u u) (f64 1 (-20)))) frozen_run = true) by (vm_compute; reflexivity).
  rewrite forallb_forall in E. exact (E u).
Qed.
Lemma frozen_start : In (clampu q_bounds (UVec [f64 1 0; f64 0 0] [] [])) frozen_run.
Proof. vm_compute. left. reflexivity. Qed.
Lemma q_error_world {T} {N : Num T} (t1 t2 : T) w w' u : q_error t1 t2 w u = q_error t1 t2 w' u.
Proof. reflexivity. Qed.

Theorem C93_frozen_refuted : forall maxiters fuel r s,
  q_solve (f64 (-103) (-2)) (f64 1 0) fuel (Options maxiters (f64 1 (-20)) false) (f64 1 0) (f64 0 0) = Some (r, s) ->
  r_succeeded r = false /\ nltb (nth 1 (ux (s_u s)) S754_nan) (f64 1 (-4)) = true.
Proof.
  intros maxiters fuel r s H.
  apply (q_never _ _ _ frozen_run) in H.
  - destruct H as [H I]. split; [exact H|]. apply frozen_low. exact I.
  - exact frozen_stays.
  - intros u w Hu. rewrite (q_error_world _ _ w u u). apply negb_true_iff. exact (frozen_bad u Hu).
  - exact frozen_start.
Qed.
Print Assumptions C93_frozen_refuted.

(** Such solves end, and the last point is one at which the computed fraction is 0. *)
Example C93_frozen_case : let last := nth 25 frozen_run (UVec [] [] []) in
  (exists r s, q_solve (f64 (-103) (-2)) (f64 1 0) 60 (Options 50 (f64 1 (-20)) false) (f64 1 0) (f64 0 0) = Some (r, s)) /\
  betamin q_bounds last (UVec [f64 (-103) (-2); f64 1 0] [] []) = S754_zero false /\
  nltb nzero (nth 0 (ux last) S754_nan) = true /\ frozen_next last = last.
Proof. cbn zeta. split; [eexists; eexists; vm_compute; reflexivity|]. vm_compute. repeat split. Qed.

(** The same problem in exact arithmetic. *)
Ltac xcases := repeat (cbn; unfold rltb, reqb; match goal with
  | |- context [Rlt_dec ?a ?b] => destruct (Rlt_dec a b); try (exfalso; lra)
  | |- context [Req_EM_T ?a ?b] => destruct (Req_EM_T a b); try (exfalso; lra) end); cbn.
Ltac veq := match goal with |- UVec [XF ?a; XF ?b] _ _ = UVec [XF ?c; XF ?d] _ _ => replace a with c by lra; replace b with d by lra; reflexivity end.
Lemma exact_1 : backtrack false q_bounds (UVec [XF 1; XF 0] [] []) (UVec [XF (-25.75); XF 1] [] []) = UVec [XF 0; XF (4 / 107)] [] [].
Proof.
  assert (Q : ((0 + - (1)) / (-25.75 + - (1)) = 4 / 107)%R).
  { replace (0 + - (1))%R with (-1)%R by lra. replace (-25.75 + - (1))%R with (-(107/4))%R by lra. field. }
  assert (E : betamin q_bounds (UVec [XF 1; XF 0] [] []) (UVec [XF (-25.75); XF 1] [] []) = XF (4 / 107)).
  { unfold betamin, beta_loop. cbn [ux up xlo xhi plo phi_ q_bounds combine fold_left beta_step].
    unfold ngtb, nmin, none1, nzero. cbn [nofZ ninf Num_xreal]. xcases; rewrite Q in *; (reflexivity || (exfalso; lra)). }
  unfold backtrack. rewrite E. unfold clampu, mix, clampv, map2, mix1, nmin, nmax, none1, nzero. xcases.
  veq.
Qed.
Lemma exact_2 : backtrack false q_bounds (UVec [XF 0; XF (4 / 107)] [] []) (UVec [XF (-25.75); XF 1] [] []) = UVec [XF 0; XF 1] [] [].
Proof.
  assert (E : betamin q_bounds (UVec [XF 0; XF (4 / 107)] [] []) (UVec [XF (-25.75); XF 1] [] []) = XF 1).
  { unfold betamin, beta_loop. cbn [ux up xlo xhi plo phi_ q_bounds combine fold_left beta_step].
    unfold ngtb, nmin, none1, nzero. cbn [nofZ ninf Num_xreal]. xcases; reflexivity. }
  unfold backtrack. rewrite E. unfold clampu, mix, clampv, map2, mix1, nmin, nmax, none1, nzero. xcases.
  veq.
Qed.

Lemma q_step {T} {N : Num T} (t1 t2 : T) o s : s_w s = s_uo s ->
  let u' := backtrack (o_fix o) q_bounds (s_uo s) (UVec (map2 nadd (ux (s_uo s)) (map2 nsub [t1; t2] (ux (s_uo s)))) (map2 nadd (up (s_uo s)) []) (map2 nadd (uw (s_uo s)) [])) in
  step (uvec T) q_update (q_error t1 t2) (q_newton t1 t2) None q_bounds o s =
  State u' (s_uo s) u' (q_error t1 t2 u' u') (S (s_iters s)) (s_hist s) (u' :: s_evals s) (u' :: s_iterates s).
Proof. intros E u'. unfold u'. destruct s. cbn in E. subst. reflexivity. Qed.

Theorem C93_frozen_exact : exists r s,
  q_solve (XF (-25.75)) (XF 1) 2 (Options 2 (XF (1 / 1048576)) false) (XF 1) (XF 0) = Some (r, s) /\
  r_succeeded r = true /\ r_iterations r = 2 /\ ux (s_u s) = [XF 0; XF 1].
Proof.
  unfold q_solve, solve. unfold initialize.
  assert (C : clampu q_bounds (UVec [XF 1; XF 0] [] []) = UVec [XF 1; XF 0] [] []).
  { unfold clampu, clampv, map2, nmin, nmax, nzero. xcases. reflexivity. }
  rewrite C. unfold update. cbn [s_w s_uo s_u s_err s_iters s_hist s_evals s_iterates].
  cbn [loop]. rewrite q_step by reflexivity. cbn [s_w s_uo s_u s_err s_iters s_hist s_evals s_iterates o_fix].
  assert (T1 : UVec (map2 nadd (ux (UVec [XF 1; XF 0] [] [])) (map2 nsub [XF (-25.75); XF 1] (ux (UVec [XF 1; XF 0] [] []))))
      (map2 nadd (up (UVec [XF 1; XF 0] [] [])) []) (map2 nadd (uw (UVec [XF 1; XF 0] [] [])) []) = UVec [XF (-25.75); XF 1] [] []).
  { cbn. veq. }
  rewrite T1, exact_1. unfold stepping at 1. cbn [s_iters o_maxiters]. change (Nat.ltb 2 1) with false. cbv iota.
  unfold converged. cbn [s_err o_tol].
  assert (E1 : forall w, q_error (XF (-25.75)) (XF 1) w (UVec [XF 0; XF (4 / 107)] [] []) = XF (103 / 107)).
  { intros w. unfold q_error. cbn [ux]. unfold nzero. xcases. f_equal. rewrite Rabs_left; lra. }
  rewrite E1.
  assert (L1 : nltb (XF (103 / 107)) (XF (1 / 1048576)) = false) by (xcases; reflexivity).
  rewrite L1. cbn [negb s_w s_uo s_u s_err s_iters s_hist s_evals s_iterates].
  rewrite q_step by reflexivity. cbn [s_w s_uo s_u s_err s_iters s_hist s_evals s_iterates o_fix].
  assert (T2 : UVec (map2 nadd (ux (UVec [XF 0; XF (4 / 107)] [] [])) (map2 nsub [XF (-25.75); XF 1] (ux (UVec [XF 0; XF (4 / 107)] [] []))))
      (map2 nadd (up (UVec [XF 0; XF (4 / 107)] [] [])) []) (map2 nadd (uw (UVec [XF 0; XF (4 / 107)] [] [])) []) = UVec [XF (-25.75); XF 1] [] []).
  { cbn. veq. }
  rewrite T2, exact_2. unfold stepping. cbn [s_iters o_maxiters]. change (Nat.ltb 2 2) with false. cbv iota.
  unfold converged. cbn [s_err o_tol].
  assert (E2 : forall w, q_error (XF (-25.75)) (XF 1) w (UVec [XF 0; XF 1] [] []) = XF 0).
  { intros w. unfold q_error. cbn [ux]. unfold nzero. xcases. f_equal. rewrite Rplus_opp_r. apply Rabs_R0. }
  rewrite E2.
  assert (L2 : nltb (XF 0) (XF (1 / 1048576)) = true) by (xcases; reflexivity).
  rewrite L2. eexists. eexists. split; [reflexivity|]. repeat split.
Qed.
Print Assumptions C93_frozen_exact.
