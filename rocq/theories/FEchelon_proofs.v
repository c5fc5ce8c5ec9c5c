(** Proofs about the echelon form in double precision. *)
From Coq Require Import Reals List Arith Bool Lia Lra Permutation.
From Coq Require Import Floats.SpecFloat.
From Flocq Require Import Core BinarySingleNaN.
From Verif Require Import Num Round_spec Float_proofs FSum_model Round_proofs FSum_spec FSum_proofs FResidual_spec FResidual_proofs FEchelon_model FEchelon_spec.
Import ListNotations.
Local Open Scope R_scope.

(* ---------- sums ---------- *)
Lemma sumn_ext n (f g : nat -> R) : (forall l, (l < n)%nat -> f l = g l) -> sumn n f = sumn n g.
Proof. intros H. unfold sumn. f_equal. apply map_ext_in. intros l Hl. apply in_seq in Hl. apply H. lia. Qed.
Lemma sumn_S n f : sumn (S n) f = sumn n f + f n.
Proof.
  unfold sumn. rewrite seq_S, map_app, Lsum_app. cbn [map plus]. f_equal. unfold Lsum. cbn. ring.
Qed.
Lemma sumn_lin n a b (f g : nat -> R) : sumn n (fun l => a * f l + b * g l) = a * sumn n f + b * sumn n g.
Proof. induction n as [|n IH]; [unfold sumn; cbn; ring|]. rewrite !sumn_S, IH. ring. Qed.
Lemma sumn_le n (f g : nat -> R) : (forall l, (l < n)%nat -> f l <= g l) -> sumn n f <= sumn n g.
Proof.
  induction n as [|n IH]; intros H; [unfold sumn; cbn; lra|]. rewrite !sumn_S.
  apply Rplus_le_compat; [apply IH; intros; apply H; lia|apply H; lia].
Qed.
Lemma sumn_abs n (f : nat -> R) : Rabs (sumn n f) <= sumn n (fun l => Rabs (f l)).
Proof.
  induction n as [|n IH]; [unfold sumn; cbn; rewrite Rabs_R0; lra|]. rewrite !sumn_S.
  eapply Rle_trans; [apply Rabs_triang|]. lra.
Qed.

(* ---------- rounding ---------- *)
Lemma div_inv x y : isfin x -> isfin y -> V y <> 0 -> isfin (ndiv x y) -> V (ndiv x y) = rnd (V x / V y).
Proof.
  intros Hx Hy Ny. destruct (to_B _ Hx) as (a & -> & Fa & Va), (to_B _ Hy) as (b & -> & Fb & Vb). rewrite div_equiv, isfin_B. intros F.
  rewrite Va, Vb. rewrite Vb in Ny. rewrite (proj2 (of_B _ F)).
  pose proof (Bdiv_correct p64 e64 Hprec Hmax mode_NE a b Ny) as C. revert C. case Rlt_bool.
  - intros (E & _). exact E.
  - intros E. exfalso. assert (Q : isfin (B2SF (Bdiv mode_NE a b))) by (apply (proj1 (of_B _ F))). rewrite E in Q. destruct Q as [_ Q].
    destruct (xorb _ _); discriminate.
Qed.
Lemma rnd_abs x : Rabs (rnd x - x) <= u64 * Rabs x + eta64.
Proof.
  destruct (rnd_err x) as (d & e & Hd & He & ->). replace (x * (1 + d) + e - x) with (x * d + e) by ring.
  eapply Rle_trans; [apply Rabs_triang|]. rewrite Rabs_mult. pose proof (Rabs_pos x). pose proof (Rabs_pos d). nra.
Qed.
Lemma V1 : V none1 = 1 /\ isfin none1.
Proof. split; [unfold V; cbn; unfold F2R; cbn; lra|split; reflexivity]. Qed.
Lemma gam_1 : gam 1 = u64.
Proof. rewrite gam_S, gam_0. ring. Qed.
Lemma gam_2 : 1 + gam 2 = (1 + u64) * (1 + u64).
Proof. change 2%nat with (1 + 1)%nat. rewrite gam_plus, gam_1. ring. Qed.
Lemma gam_4 : 1 + gam 4 = (1 + gam 2) * (1 + gam 2).
Proof. change 4%nat with (2 + 2)%nat. apply gam_plus. Qed.

Lemma aux_err s : isfin s -> V s <> 0 -> isfin (ndiv none1 s) ->
  Rabs (V (ndiv none1 s) - 1 / V s) <= u64 * Rabs (1 / V s) + eta64.
Proof.
  intros Fs Ns F. rewrite (div_inv none1 s (proj2 V1) Fs Ns F), (proj1 V1). apply rnd_abs.
Qed.
(** the product of a number and the rounded reciprocal of s *)
Lemma quot_err x s : valid x -> isfin s -> V s <> 0 -> valid (ndiv none1 s) -> isfin (nmul x (ndiv none1 s)) ->
  Rabs (V (nmul x (ndiv none1 s)) - V x / V s) <= gam 2 * Rabs (V x / V s) + (Rabs (V x) + 1) * (eta64 * (1 + gam 2)).
Proof.
  intros Vx Fs Ns Va F. destruct (mul_inv _ _ Vx Va F) as (Fx & Fa & ->).
  pose proof (aux_err s Fs Ns Fa) as H1. set (t := V (ndiv none1 s)) in *.
  pose proof (rnd_abs (V x * t)) as H2.
  assert (Q : Rabs (V x * t - V x / V s) <= u64 * Rabs (V x / V s) + eta64 * Rabs (V x)).
  { replace (V x * t - V x / V s) with (V x * (t - 1 / V s)) by (field; exact Ns). replace (V x / V s) with (V x * (1 / V s)) by (field; exact Ns).
    rewrite !Rabs_mult. pose proof (Rabs_pos (V x)). nra. }
  assert (Q2 : Rabs (V x * t) <= Rabs (V x / V s) + (u64 * Rabs (V x / V s) + eta64 * Rabs (V x))).
  { replace (V x * t) with (V x / V s + (V x * t - V x / V s)) by ring. eapply Rle_trans; [apply Rabs_triang|]. lra. }
  replace (rnd (V x * t) - V x / V s) with ((rnd (V x * t) - V x * t) + (V x * t - V x / V s)) by ring.
  eapply Rle_trans; [apply Rabs_triang|].
  pose proof u64_pos. pose proof eta64_pos. pose proof (Rabs_pos (V x / V s)). pose proof (Rabs_pos (V x)).
  assert (u64 * Rabs (V x * t) <= u64 * (Rabs (V x / V s) + (u64 * Rabs (V x / V s) + eta64 * Rabs (V x)))) by (apply Rmult_le_compat_l; lra).
  pose proof gam_2 as G2.
  replace (gam 2) with ((1 + u64) * (1 + u64) - 1) by lra.
  assert (P1 : 0 <= u64 * eta64) by (apply Rmult_le_pos; lra).
  assert (P2 : 0 <= u64 * eta64 * Rabs (V x)) by (apply Rmult_le_pos; lra).
  assert (P3 : 0 <= u64 * (u64 * eta64)) by (apply Rmult_le_pos; lra).
  assert (P4 : 0 <= u64 * (u64 * eta64 * Rabs (V x))).
  { apply Rmult_le_pos; [lra|]. apply Rmult_le_pos; lra. }
  set (X := Rabs (V x / V s)) in *. set (Y := Rabs (V x)) in *.
  replace (((1 + u64) * (1 + u64) - 1) * X + (Y + 1) * (eta64 * (1 + ((1 + u64) * (1 + u64) - 1)))) with
    (u64 * (X + (u64 * X + eta64 * Y)) + eta64 + (u64 * X + eta64 * Y) + u64 * eta64 * Y + 2 * (u64 * eta64) + u64 * (u64 * eta64) + u64 * (u64 * eta64 * Y)) by ring.
  lra.
Qed.

Lemma ms_err ms a b c : rounded_ms ms -> valid a -> valid b -> valid c -> isfin (ms a b c) ->
  isfin a /\ isfin b /\ isfin c /\
  Rabs (V (ms a b c) - (V a - V b * V c)) <= gam 2 * (Rabs (V a) + Rabs (V b * V c)) + 2 * eta64 * (1 + gam 2).
Proof.
  intros M Va Vb Vc F.
  assert (H : isfin a /\ isfin b /\ isfin c /\ evalR [V a; - (V b * V c)] (ms a b c)).
  { destruct (M a b c Va Vb Vc) as [E|[_ E]].
    - rewrite E in F |- *. destruct (sub_inv _ _ Va (valid_mul _ _ Vb Vc) F) as (Fa & Fm & _). destruct (mul_inv _ _ Vb Vc Fm) as (Fb & Fc & _).
      do 3 (split; [assumption|]). apply (er_sub [V a] [V b * V c]); now constructor.
    - destruct (E F) as (Fb & Fc & Fa & Q). do 3 (split; [auto using fin_opp|]).
      apply (er_perm [- (V b * V c); V a]); [|constructor].
      replace (- (V b * V c)) with (V (nopp b) * V c) by (rewrite V_opp; ring).
      eapply er_fma; [apply er_val; exact Va|]. split; [apply F|]. auto. }
  destruct H as (Fa & Fb & Fc & E). do 3 (split; [assumption|]).
  pose proof (evalR_err _ _ E F) as Q. unfold Labs, Lsum in Q. cbn [map fold_right length] in Q. rewrite tiny_eq, Rabs_Ropp, !Rplus_0_r in Q.
  cbn [INR] in Q. replace (1 + 1) with 2 in Q by ring. exact Q.
Qed.

(** entry of a row that is reduced *)
Lemma entry_err ms x a y s : rounded_ms ms -> valid x -> valid a -> valid y -> isfin s -> V s <> 0 -> valid (ndiv none1 s) ->
  isfin (ms x a (nmul y (ndiv none1 s))) ->
  Rabs (V (ms x a (nmul y (ndiv none1 s))) - (V x - V a * (V y / V s))) <=
    gam 4 * (Rabs (V x) + Rabs (V a * (V y / V s))) + eta64 * (1 + gam 4) * (2 + Rabs (V a) * (1 + Rabs (V y))).
Proof.
  intros M Vx Va Vy Fs Ns Vq F. destruct (ms_err ms _ _ _ M Vx Va (valid_mul _ _ Vy Vq) F) as (Fx & Fa & Fc & H1).
  pose proof (quot_err y s Vy Fs Ns Vq Fc) as H2.
  set (c := V (nmul y (ndiv none1 s))) in *. set (v := V (ms x a _)) in *. set (z := V y / V s) in *.
  pose proof eta64_pos. pose proof (gam_pos 2). pose proof (Rabs_pos (V x)). pose proof (Rabs_pos (V a)). pose proof (Rabs_pos z). pose proof (Rabs_pos (V y)).
  pose proof gam_4 as G4.
  set (g := gam 2) in *. replace (gam 4) with ((1 + g) * (1 + g) - 1) by lra.
  set (k := (Rabs (V y) + 1) * (eta64 * (1 + g))) in *.
  assert (K0 : 0 <= k). { unfold k. apply Rmult_le_pos; [lra|]. apply Rmult_le_pos; lra. }
  assert (Hc : Rabs c <= (1 + g) * Rabs z + k).
  { replace c with (z + (c - z)) by ring. eapply Rle_trans; [apply Rabs_triang|]. lra. }
  replace (v - (V x - V a * z)) with ((v - (V x - V a * c)) + (- (V a * (c - z)))) by ring.
  eapply Rle_trans; [apply Rabs_triang|]. rewrite Rabs_Ropp. rewrite !Rabs_mult in *.
  assert (Q1 : Rabs (V a) * Rabs (c - z) <= Rabs (V a) * (g * Rabs z + k)) by (apply Rmult_le_compat_l; lra).
  assert (Q2 : g * (Rabs (V x) + Rabs (V a) * Rabs c) <= g * (Rabs (V x) + Rabs (V a) * ((1 + g) * Rabs z + k))).
  { apply Rmult_le_compat_l; [lra|]. apply Rplus_le_compat_l. apply Rmult_le_compat_l; lra. }
  set (X := Rabs (V x)) in *. set (a' := Rabs (V a)) in *. set (Z := Rabs z) in *.
  assert (P1 : 0 <= g * X) by (apply Rmult_le_pos; lra).
  assert (P2 : 0 <= g * (g * X)) by (apply Rmult_le_pos; lra).
  assert (P3 : 0 <= eta64 * g) by (apply Rmult_le_pos; lra).
  assert (P4 : 0 <= eta64 * g * g) by (apply Rmult_le_pos; lra).
  replace (((1 + g) * (1 + g) - 1) * (X + a' * Z) + eta64 * (1 + ((1 + g) * (1 + g) - 1)) * (2 + a' * (1 + Rabs (V y)))) with
    (g * (X + a' * ((1 + g) * Z + k)) + 2 * eta64 * (1 + g) + a' * (g * Z + k) + g * X + g * (g * X) + 2 * (eta64 * g) + 2 * (eta64 * g * g)) by (unfold k; ring).
  lra.
Qed.

Section Main.
Variables (m nb nn : nat) (A : nat -> nat -> spec_float) (ms : spec_float -> spec_float -> spec_float -> spec_float).
Hypothesis M : rounded_ms ms.
Notation off := (off m nb A). Notation canonical := (canonical nb). Notation came := (came nb).

Section Swap.
Variables (e : fech spec_float) (ib jn : nat).
Hypotheses (Ib : (ib < nb)%nat) (Jn : (jn < nn)%nat) (Fe : numbers_in m nb nn e) (Ns : V (eS e ib jn) <> 0).
Let e' := f_swap ms nb e ib jn.
Hypothesis Fe' : numbers_in m nb nn e'.
Let s := V (eS e ib jn).

(** the exact results of the exchange *)
Definition tX (X : nat -> nat -> spec_float) i l : R :=
  if Nat.eqb i ib then V (X ib l) / s else V (X i l) - V (eS e i jn) * (V (X ib l) / s).
Definition tS i j : R :=
  if Nat.eqb j jn then (if Nat.eqb i ib then 1 / s else - (V (eS e i jn) / s)) else tX (eS e) i j.

Lemma aux_fin : isfin (ndiv none1 (eS e ib jn)).
Proof. destruct Fe' as [_ H]. specialize (H ib jn Ib Jn). unfold e', f_swap in H. cbn [eS] in H. now rewrite !Nat.eqb_refl in H. Qed.

Lemma rows_err X n : (forall i l, (i < nb)%nat -> (l < n)%nat -> isfin (X i l)) -> forall i l, (i < nb)%nat -> (l < n)%nat ->
  isfin (f_rows ms X (eS e) ib jn i l) ->
  Rabs (V (f_rows ms X (eS e) ib jn i l) - tX X i l) <= gam 4 * mag e X ib jn i l + eta64 * (1 + gam 4) * unders e X ib jn i l.
Proof.
  intros FX i l Hi Hl F. destruct Fe as [_ FS]. unfold f_rows, tX, mag, unders, piv in *. fold s. cbn zeta in *.
  pose proof eta64_pos. pose proof (gam_pos 2). pose proof (gam_pos 4). pose proof (gam_mono 2 4 ltac:(lia)).
  destruct (Nat.eqb i ib) eqn:E.
  - pose proof (quot_err (X ib l) (eS e ib jn) (isfin_valid _ (FX _ _ Ib Hl)) (FS _ _ Ib Jn) Ns (isfin_valid _ aux_fin) F) as Q.
    eapply Rle_trans; [exact Q|]. fold s. pose proof (Rabs_pos (V (X ib l) / s)). pose proof (Rabs_pos (V (X ib l))).
    apply Rplus_le_compat; [apply Rmult_le_compat_r; lra|]. rewrite Rmult_comm. apply Rmult_le_compat; try lra.
    + apply Rmult_le_pos; lra.
    + apply Rmult_le_compat_l; lra.
  - apply (entry_err ms); auto using isfin_valid, aux_fin.
Qed.

Lemma R_err i l : (i < nb)%nat -> (l < m)%nat ->
  Rabs (V (eR e' i l) - tX (eR e) i l) <= gam 4 * mag e (eR e) ib jn i l + eta64 * (1 + gam 4) * unders e (eR e) ib jn i l.
Proof. intros Hi Hl. apply (rows_err (eR e) m); auto. - apply Fe. - apply Fe'; auto. Qed.

Lemma S_err i j : (i < nb)%nat -> (j < nn)%nat ->
  Rabs (V (eS e' i j) - tS i j) <= gam 4 * magS e ib jn i j + eta64 * (1 + gam 4) * unders e (eS e) ib jn i j.
Proof.
  intros Hi Hj. destruct Fe' as [_ FS']. specialize (FS' i j Hi Hj). unfold e', f_swap, tS, magS in *. cbn [eS] in *. cbn zeta in *.
  destruct (Nat.eqb j jn) eqn:Ej; [|apply (rows_err (eS e) nn); auto; apply Fe].
  apply Nat.eqb_eq in Ej. subst j. destruct Fe as [_ FS]. unfold unders, piv.
  pose proof eta64_pos. pose proof (gam_pos 2). pose proof (gam_pos 4). pose proof (gam_mono 2 4 ltac:(lia)). pose proof (gam_mono 1 4 ltac:(lia)). rewrite gam_1 in *.
  pose proof (Rabs_pos (V (eS e ib jn))) as Ps. fold s in Ps. fold s.
  assert (P0 : 0 <= eta64 * gam 4) by (apply Rmult_le_pos; lra).
  destruct (Nat.eqb i ib) eqn:Ei.
  - eapply Rle_trans; [apply (aux_err _ (FS _ _ Ib Jn) Ns FS')|]. fold s.
    apply Rplus_le_compat; [apply Rmult_le_compat_r; [apply Rabs_pos|lra]|].
    assert (0 <= eta64 * (1 + gam 4)) by (apply Rmult_le_pos; lra). 
    apply Rle_trans with (eta64 * (1 + gam 4) * 1); [lra|]. apply Rmult_le_compat_l; lra.
  - pose proof (quot_err (nopp (eS e i jn)) (eS e ib jn) (valid_opp _ (isfin_valid _ (FS _ _ Hi Jn))) (FS _ _ Ib Jn) Ns (isfin_valid _ aux_fin) FS') as Q.
    rewrite V_opp in Q. fold s in Q. replace (- V (eS e i jn) / s) with (- (V (eS e i jn) / s)) in Q by (unfold s; field; exact Ns).
    rewrite !Rabs_Ropp in Q. eapply Rle_trans; [exact Q|]. fold s. pose proof (Rabs_pos (V (eS e i jn) / s)). pose proof (Rabs_pos (V (eS e i jn))).
    apply Rplus_le_compat; [apply Rmult_le_compat_r; lra|]. rewrite Rmult_comm. apply Rmult_le_compat; try lra.
    + apply Rmult_le_pos; lra.
    + apply Rmult_le_compat_l; lra.
    + rewrite Rmult_plus_distr_l, Rmult_1_r. assert (0 <= Rabs (V (eS e i jn)) * Rabs s) by (apply Rmult_le_pos; lra). lra.
Qed.

(** exact arithmetic *)
Definition tcan i j : R := if Nat.ltb j nb then (if Nat.eqb i j then 1 else 0) else tS i (j - nb).
Lemma Q_came j : (j < nb + nn)%nat -> eQ e' j = eQ e (came ib jn j).
Proof. intros Hj. unfold e', f_swap, FEchelon_spec.came. cbn [eQ]. destruct (Nat.eqb j ib); [reflexivity|]. now destruct (Nat.eqb j (nb + jn)). Qed.

Lemma can_came i j : (i < nb)%nat -> (j < nb + nn)%nat ->
  tcan i j = if Nat.eqb i ib then canonical e ib (came ib jn j) / s
             else canonical e i (came ib jn j) - V (eS e i jn) / s * canonical e ib (came ib jn j).
Proof.
  intros Hi Hj. unfold tcan, FEchelon_spec.canonical, FEchelon_spec.came, tS, tX.
  destruct (Nat.eqb_spec j ib) as [->|N1].
  - replace (Nat.ltb ib nb) with true by (symmetry; apply Nat.ltb_lt; lia).
    replace (Nat.ltb (nb + jn) nb) with false by (symmetry; apply Nat.ltb_ge; lia). replace (nb + jn - nb)%nat with jn by lia. fold s.
    destruct (Nat.eqb_spec i ib) as [->|N2]; unfold s; field; exact Ns.
  - destruct (Nat.eqb_spec j (nb + jn)) as [->|N2].
    + replace (Nat.ltb (nb + jn) nb) with false by (symmetry; apply Nat.ltb_ge; lia). replace (nb + jn - nb)%nat with jn by lia. rewrite Nat.eqb_refl.
      replace (Nat.ltb ib nb) with true by (symmetry; apply Nat.ltb_lt; lia). rewrite Nat.eqb_refl.
      destruct (Nat.eqb_spec i ib) as [->|N3]; unfold s; field; exact Ns.
    + destruct (Nat.ltb_spec j nb).
      * replace (Nat.eqb ib j) with false by (symmetry; apply Nat.eqb_neq; lia).
        destruct (Nat.eqb_spec i ib) as [->|N3]; [replace (Nat.eqb ib j) with false by (symmetry; apply Nat.eqb_neq; lia); unfold s; field; exact Ns|ring].
      * replace (Nat.eqb (j - nb) jn) with false by (symmetry; apply Nat.eqb_neq; lia).
        destruct (Nat.eqb_spec i ib) as [->|N3]; unfold s; field; exact Ns.
Qed.

Lemma exact_off i j : (i < nb)%nat -> (j < nb + nn)%nat ->
  sumn m (fun l => tX (eR e) i l * V (A l (eQ e' j))) - tcan i j =
  if Nat.eqb i ib then off e ib (came ib jn j) / s
  else off e i (came ib jn j) - V (eS e i jn) / s * off e ib (came ib jn j).
Proof.
  intros Hi Hj. rewrite (can_came i j Hi Hj), (Q_came j Hj). unfold FEchelon_spec.off, tX. set (q := eQ e (came ib jn j)).
  destruct (Nat.eqb i ib).
  - rewrite (sumn_ext m _ (fun l => (1 / s) * (V (eR e ib l) * V (A l q)) + 0 * 0)) by (intros; unfold s; field; exact Ns).
    rewrite (sumn_lin m (1 / s) 0 (fun l => V (eR e ib l) * V (A l q)) (fun _ => 0)). unfold s. field. exact Ns.
  - rewrite (sumn_ext m _ (fun l => 1 * (V (eR e i l) * V (A l q)) + (- (V (eS e i jn) / s)) * (V (eR e ib l) * V (A l q)))) by (intros; unfold s; field; exact Ns).
    rewrite (sumn_lin m 1 _ (fun l => V (eR e i l) * V (A l q)) (fun l => V (eR e ib l) * V (A l q))). ring.
Qed.

Lemma off_swap i j : (i < nb)%nat -> (j < nb + nn)%nat ->
  Rabs (off e' i j) <= carried m nb A e ib jn i j + rounding m nb A e e' ib jn i j.
Proof.
  intros Hi Hj. pose proof (exact_off i j Hi Hj) as E.
  set (t := sumn m (fun l => tX (eR e) i l * V (A l (eQ e' j))) - tcan i j) in *.
  assert (Hc : Rabs t <= carried m nb A e ib jn i j).
  { rewrite E. unfold carried, piv. fold s. destruct (Nat.eqb i ib); [lra|].
    unfold Rminus. eapply Rle_trans; [apply Rabs_triang|]. rewrite Rabs_Ropp, Rabs_mult. lra. }
  assert (Hr : Rabs (off e' i j - t) <= rounding m nb A e e' ib jn i j).
  { replace (off e' i j - t) with (sumn m (fun l => (V (eR e' i l) - tX (eR e) i l) * V (A l (eQ e' j))) - (canonical e' i j - tcan i j)).
    2: { unfold t, FEchelon_spec.off. rewrite (sumn_ext m (fun l => (V (eR e' i l) - tX (eR e) i l) * V (A l (eQ e' j)))
           (fun l => 1 * (V (eR e' i l) * V (A l (eQ e' j))) + (-1) * (tX (eR e) i l * V (A l (eQ e' j))))) by (intros; ring).
         rewrite (sumn_lin m 1 (-1) (fun l => V (eR e' i l) * V (A l (eQ e' j))) (fun l => tX (eR e) i l * V (A l (eQ e' j)))). ring. }
    unfold Rminus at 1. eapply Rle_trans; [apply Rabs_triang|]. rewrite Rabs_Ropp.
    assert (H1 : Rabs (sumn m (fun l => (V (eR e' i l) - tX (eR e) i l) * V (A l (eQ e' j)))) <=
      gam 4 * sumn m (fun l => mag e (eR e) ib jn i l * Rabs (V (A l (eQ e' j)))) +
      eta64 * (1 + gam 4) * sumn m (fun l => unders e (eR e) ib jn i l * Rabs (V (A l (eQ e' j))))).
    { eapply Rle_trans; [apply sumn_abs|].
      rewrite <- (sumn_lin m (gam 4) (eta64 * (1 + gam 4)) (fun l => mag e (eR e) ib jn i l * Rabs (V (A l (eQ e' j)))) (fun l => unders e (eR e) ib jn i l * Rabs (V (A l (eQ e' j))))).
      apply sumn_le. intros l Hl. rewrite Rabs_mult, <- !Rmult_assoc, <- Rmult_plus_distr_r. apply Rmult_le_compat_r; [apply Rabs_pos|]. apply R_err; auto. }
    assert (H2 : Rabs (canonical e' i j - tcan i j) <=
      gam 4 * (if Nat.ltb j nb then 0 else magS e ib jn i (j - nb)) + eta64 * (1 + gam 4) * (if Nat.ltb j nb then 0 else unders e (eS e) ib jn i (j - nb))).
    { unfold FEchelon_spec.canonical, tcan. destruct (Nat.ltb_spec j nb); [rewrite Rminus_diag_eq, Rabs_R0 by reflexivity; lra|]. apply S_err; [auto|lia]. }
    unfold rounding. change (bpow radix2 (-1075)) with eta64. lra. }
  replace (off e' i j) with (t + (off e' i j - t)) by ring. eapply Rle_trans; [apply Rabs_triang|]. lra.
Qed.
End Swap.

(* ---------- any sequence of changes ---------- *)
Lemma clean_err1 sg x y : isfin x -> isfin y -> Rabs (V y) <= sg -> isfin (f_clean1 y x) ->
  Rabs (V (f_clean1 y x) - V x) <= gam 4 * (Rabs (V x) + sg) + eta64 * (1 + gam 4) * 2.
Proof.
  intros Fx Fy Hy F. unfold f_clean1 in *.
  destruct (sub_inv _ _ (valid_add _ _ (isfin_valid _ Fx) (isfin_valid _ Fy)) (isfin_valid _ Fy) F) as (Fa & _ & ->).
  destruct (add_inv _ _ (isfin_valid _ Fx) (isfin_valid _ Fy) Fa) as (_ & _ & ->).
  pose proof (rnd_abs (V x + V y)) as H1. set (t := rnd (V x + V y)) in *. pose proof (rnd_abs (t - V y)) as H2.
  pose proof u64_pos as HU. pose proof eta64_pos as HE. pose proof (Rabs_pos (V x)) as HX0. pose proof (Rabs_pos (V y)) as HY0.
  assert (H3 : u64 * Rabs (V x + V y) <= u64 * (Rabs (V x) + sg)).
  { apply Rmult_le_compat_l; [lra|]. eapply Rle_trans; [apply Rabs_triang|]. lra. }
  assert (H4 : Rabs (t - V y) <= Rabs (V x) + (u64 * (Rabs (V x) + sg) + eta64)).
  { replace (t - V y) with (V x + (t - (V x + V y))) by ring. eapply Rle_trans; [apply Rabs_triang|]. lra. }
  assert (H5 : u64 * Rabs (t - V y) <= u64 * (Rabs (V x) + (u64 * (Rabs (V x) + sg) + eta64))) by (apply Rmult_le_compat_l; lra).
  replace (rnd (t - V y) - V x) with ((rnd (t - V y) - (t - V y)) + (t - (V x + V y))) by ring.
  eapply Rle_trans; [apply Rabs_triang|].
  pose proof gam_2 as G2. pose proof (gam_mono 2 4 ltac:(lia)) as G24.
  set (X := Rabs (V x)) in *.
  assert (P1 : gam 2 * (X + sg) <= gam 4 * (X + sg)) by (apply Rmult_le_compat_r; lra).
  assert (P2 : eta64 * (1 + gam 2) * 2 <= eta64 * (1 + gam 4) * 2).
  { apply Rmult_le_compat_r; [lra|]. apply Rmult_le_compat_l; lra. }
  assert (P3 : 0 <= u64 * sg) by (apply Rmult_le_pos; lra).
  assert (P4 : 0 <= u64 * eta64) by (apply Rmult_le_pos; lra).
  assert (P5 : 0 <= u64 * (u64 * eta64)) by (apply Rmult_le_pos; lra).
  replace (gam 2) with ((1 + u64) * (1 + u64) - 1) in P1, P2 by lra.
  replace (((1 + u64) * (1 + u64) - 1) * (X + sg)) with (u64 * (X + sg) + u64 * (X + u64 * (X + sg)) + u64 * sg) in P1 by ring.
  replace (eta64 * (1 + ((1 + u64) * (1 + u64) - 1)) * 2) with (2 * eta64 + 4 * (u64 * eta64) + 2 * (u64 * (u64 * eta64))) in P2 by ring.
  replace (u64 * (X + (u64 * (X + sg) + eta64))) with (u64 * (X + u64 * (X + sg)) + u64 * eta64) in H5 by ring.
  lra.
Qed.

Section Drift.
Variables (G sg mu al : R).
Hypotheses (HG : 0 <= G) (Hsg : 0 <= sg) (Hmu : 1 <= mu) (Hal : 0 <= al).
Let E := change_err G sg mu al.
Notation within D e := (forall i j, (i < nb)%nat -> (j < nb + nn)%nat -> Rabs (off e i j) <= D).

Lemma E_pos : 0 <= E.
Proof.
  unfold E, change_err. change (bpow radix2 (-1075)) with eta64. pose proof (gam_pos 4). pose proof eta64_pos.
  apply Rplus_le_le_0_compat; apply Rmult_le_pos; try lra.
  - apply Rplus_le_le_0_compat; repeat apply Rmult_le_pos; lra.
  - apply Rmult_le_pos; lra.
  - apply Rmult_le_pos; [lra|]. assert (0 <= (1 + mu) * (1 + mu)) by (apply Rmult_le_pos; lra). lra.
Qed.

Lemma came_lt ib jn j : (ib < nb)%nat -> (jn < nn)%nat -> (j < nb + nn)%nat -> (came ib jn j < nb + nn)%nat.
Proof. intros. unfold FEchelon_spec.came. destruct (Nat.eqb j ib); [lia|]. destruct (Nat.eqb j (nb + jn)); lia. Qed.
Lemma div_le x s : s <> 0 -> 1 <= G * Rabs s -> Rabs (x / s) <= G * Rabs x.
Proof.
  intros Ns H. unfold Rdiv. rewrite Rabs_mult, (Rmult_comm G). apply Rmult_le_compat_l; [apply Rabs_pos|].
  rewrite Rabs_inv. apply Rabs_pos_lt in Ns. apply (Rmult_le_reg_r (Rabs s)); [exact Ns|]. rewrite Rinv_l by lra. exact H.
Qed.
Lemma ratio_le a s : s <> 0 -> Rabs a <= G * Rabs s -> Rabs (a / s) <= G.
Proof.
  intros Ns H. unfold Rdiv. rewrite Rabs_mult, Rabs_inv. apply Rabs_pos_lt in Ns.
  apply (Rmult_le_reg_r (Rabs s)); [exact Ns|]. rewrite Rmult_assoc, Rinv_l by lra. lra.
Qed.

Lemma swap_drift D e ib jn : 0 <= D -> numbers_in m nb nn e -> sizes_below m nb nn A mu e -> columns_below m nb nn A al e ->
  tame_op nb nn G sg e (FSwap ib jn) -> numbers_in m nb nn (f_swap ms nb e ib jn) -> within D e ->
  within ((1 + G) * D + E) (f_swap ms nb e ib jn).
Proof.
  intros HD Fe (S1 & S2 & S3) Cb (Ib & Jn & Ns & _ & H1 & HS) Fe' HW i j Hi Hj.
  set (e' := f_swap ms nb e ib jn) in *. eapply Rle_trans; [apply (off_swap e ib jn Ib Jn Fe Ns Fe' i j Hi Hj)|]. fold e'.
  set (s := V (eS e ib jn)) in *. pose proof (came_lt ib jn j Ib Jn Hj) as Hc. set (q := came ib jn j) in *.
  pose proof (ratio_le _ s Ns (HS i Hi)) as Ra. pose proof (Rabs_pos (V (eS e i jn) / s)) as Ra0.
  assert (C1 : carried m nb A e ib jn i j <= (1 + G) * D).
  { unfold carried, piv. fold q s. pose proof (HW i q Hi Hc). pose proof (HW ib q Ib Hc). pose proof (Rabs_pos (off e ib q)).
    destruct (Nat.eqb i ib).
    - eapply Rle_trans; [apply (div_le _ s Ns H1)|]. assert (G * Rabs (off e ib q) <= G * D) by (apply Rmult_le_compat_l; lra). lra.
    - assert (Rabs (V (eS e i jn) / s) * Rabs (off e ib q) <= G * D) by (apply Rmult_le_compat; lra). lra. }
  assert (C2 : rounding m nb A e e' ib jn i j <= E).
  { unfold rounding, E, change_err. change (bpow radix2 (-1075)) with eta64. pose proof (gam_pos 4). pose proof eta64_pos.
    unfold e'. rewrite (Q_came e ib jn j Hj). fold q.
    assert (Gm : 0 <= G * mu) by (apply Rmult_le_pos; lra).
    assert (M1 : sumn m (fun l => mag e (eR e) ib jn i l * Rabs (V (A l (eQ e q)))) <= (1 + G) * mu).
    { apply Rle_trans with (sumn m (fun l => 1 * (Rabs (V (eR e i l)) * Rabs (V (A l (eQ e q)))) + G * (Rabs (V (eR e ib l)) * Rabs (V (A l (eQ e q)))))).
      - apply sumn_le. intros l Hl. unfold mag, piv. fold s. pose proof (Rabs_pos (V (A l (eQ e q)))) as PA. pose proof (Rabs_pos (V (eR e i l))) as PR. pose proof (Rabs_pos (V (eR e ib l))) as PRb.
        destruct (Nat.eqb i ib).
        + pose proof (div_le (V (eR e ib l)) s Ns H1) as Q. apply (Rmult_le_compat_r _ _ _ PA) in Q.
          assert (0 <= Rabs (V (eR e i l)) * Rabs (V (A l (eQ e q)))) by (apply Rmult_le_pos; lra). lra.
        + replace (V (eS e i jn) * (V (eR e ib l) / s)) with ((V (eS e i jn) / s) * V (eR e ib l)) by (field; exact Ns). rewrite Rabs_mult.
          rewrite Rmult_plus_distr_r, Rmult_1_l. apply Rplus_le_compat_l. rewrite Rmult_assoc. apply Rmult_le_compat_r; [apply Rmult_le_pos; lra|exact Ra].
      - rewrite (sumn_lin m 1 G (fun l => Rabs (V (eR e i l)) * Rabs (V (A l (eQ e q)))) (fun l => Rabs (V (eR e ib l)) * Rabs (V (A l (eQ e q))))).
        pose proof (S3 i q Hi Hc). pose proof (S3 ib q Ib Hc) as Q. apply (Rmult_le_compat_l _ _ _ HG) in Q. lra. }
    assert (M2 : (if Nat.ltb j nb then 0 else magS e ib jn i (j - nb)) <= (1 + G) * mu).
    { destruct (Nat.ltb_spec j nb); [lra|]. unfold magS, mag, piv. fold s.
      assert (G <= G * mu) by (rewrite <- (Rmult_1_r G) at 1; apply Rmult_le_compat_l; lra).
      destruct (Nat.eqb (j - nb) jn); [destruct (Nat.eqb i ib)|].
      - eapply Rle_trans; [apply (div_le _ s Ns H1)|]. rewrite Rabs_R1. lra.
      - lra.
      - pose proof (S2 i (j - nb)%nat Hi ltac:(lia)). pose proof (S2 ib (j - nb)%nat Ib ltac:(lia)) as Q. destruct (Nat.eqb i ib).
        + eapply Rle_trans; [apply (div_le _ s Ns H1)|]. apply (Rmult_le_compat_l _ _ _ HG) in Q. lra.
        + replace (V (eS e i jn) * (V (eS e ib (j - nb)) / s)) with ((V (eS e i jn) / s) * V (eS e ib (j - nb))) by (field; exact Ns). rewrite Rabs_mult.
          assert (Rabs (V (eS e i jn) / s) * Rabs (V (eS e ib (j - nb))) <= G * mu) by (apply Rmult_le_compat; try lra; apply Rabs_pos). lra. }
    set (Z := 2 + (1 + mu) * (1 + mu)).
    assert (U : forall x, Rabs x <= mu -> 2 + (if Nat.eqb i ib then 1 else Rabs (V (eS e i jn))) * (1 + Rabs x) <= Z).
    { intros x Hx. unfold Z. apply Rplus_le_compat_l. pose proof (S2 i jn Hi Jn). pose proof (Rabs_pos x). pose proof (Rabs_pos (V (eS e i jn))).
      apply Rmult_le_compat; try lra; destruct (Nat.eqb i ib); lra. }
    assert (Z0 : 0 <= Z) by (unfold Z; assert (0 <= (1 + mu) * (1 + mu)) by (apply Rmult_le_pos; lra); lra).
    assert (U1 : sumn m (fun l => unders e (eR e) ib jn i l * Rabs (V (A l (eQ e q)))) <= Z * al).
    { apply Rle_trans with (sumn m (fun l => Z * Rabs (V (A l (eQ e q))) + 0 * 0)).
      - apply sumn_le. intros l Hl. rewrite Rmult_0_l, Rplus_0_r. apply Rmult_le_compat_r; [apply Rabs_pos|]. apply U, S1; auto.
      - rewrite (sumn_lin m Z 0 (fun l => Rabs (V (A l (eQ e q)))) (fun _ => 0)), Rmult_0_l, Rplus_0_r. apply Rmult_le_compat_l; [exact Z0|]. apply (Cb q Hc). }
    assert (U2 : (if Nat.ltb j nb then 0 else unders e (eS e) ib jn i (j - nb)) <= Z).
    { destruct (Nat.ltb_spec j nb); [exact Z0|]. apply U, S2; [auto|lia]. }
    apply Rplus_le_compat.
    - apply Rmult_le_compat_l; [lra|]. assert (0 <= sg * (1 + al)) by (apply Rmult_le_pos; lra). lra.
    - apply Rmult_le_compat_l; [apply Rmult_le_pos; lra|]. lra. }
  lra.
Qed.

Lemma order_drift D e Kb Kn : tame_op nb nn G sg e (FOrder Kb Kn) -> within D e -> within D (f_order nb e Kb Kn).
Proof.
  intros (HK & HN & HI) HW i j Hi Hj. unfold FEchelon_spec.off, FEchelon_spec.canonical, f_order. cbn [eR eS eQ].
  destruct (Nat.ltb_spec j nb) as [Lj|Lj].
  - specialize (HW (Kb i) (Kb j) (HK i Hi)). unfold FEchelon_spec.off, FEchelon_spec.canonical in HW.
    pose proof (HK j Lj) as HKj. apply Nat.ltb_lt in HKj. rewrite HKj in HW. apply Nat.ltb_lt in HKj.
    replace (Nat.eqb i j) with (Nat.eqb (Kb i) (Kb j)); [apply HW; lia|].
    destruct (Nat.eqb_spec i j) as [->|N]; [apply Nat.eqb_refl|]. apply Nat.eqb_neq. intros Q. elim N. now apply HI.
  - pose proof (HN (j - nb)%nat ltac:(lia)). specialize (HW (Kb i) (nb + Kn (j - nb))%nat (HK i Hi) ltac:(lia)).
    unfold FEchelon_spec.off, FEchelon_spec.canonical in HW.
    replace (Nat.ltb (nb + Kn (j - nb)%nat) nb) with false in HW by (symmetry; apply Nat.ltb_ge; lia).
    now replace (nb + Kn (j - nb)%nat - nb)%nat with (Kn (j - nb)%nat) in HW by lia.
Qed.

Lemma clean_drift D e sigma : numbers_in m nb nn e -> sizes_below m nb nn A mu e -> columns_below m nb nn A al e ->
  tame_op nb nn G sg e (FClean sigma) -> numbers_in m nb nn (f_clean sigma e) -> within D e -> within (D + E) (f_clean sigma e).
Proof.
  intros Fe (S1 & S2 & S3) Cb (Fs & Hs) Fe' HW i j Hi Hj. set (e' := f_clean sigma e) in *.
  pose proof (gam_pos 4). pose proof eta64_pos. set (g := eta64 * (1 + gam 4)). assert (g0 : 0 <= g) by (apply Rmult_le_pos; lra).
  assert (H1 : Rabs (sumn m (fun l => (V (eR e' i l) - V (eR e i l)) * V (A l (eQ e j)))) <= gam 4 * (mu + sg * al) + g * (2 * al)).
  { eapply Rle_trans; [apply sumn_abs|].
    apply Rle_trans with (sumn m (fun l => gam 4 * (Rabs (V (eR e i l)) * Rabs (V (A l (eQ e j)))) + (gam 4 * sg + g * 2) * Rabs (V (A l (eQ e j))))).
    - apply sumn_le. intros l Hl. rewrite Rabs_mult.
      pose proof (clean_err1 sg (eR e i l) sigma (proj1 Fe i l Hi Hl) Fs Hs (proj1 Fe' i l Hi Hl)) as Q.
      apply (Rmult_le_compat_r _ _ _ (Rabs_pos (V (A l (eQ e j))))) in Q. unfold g. 
      replace (gam 4 * (Rabs (V (eR e i l)) * Rabs (V (A l (eQ e j)))) + (gam 4 * sg + eta64 * (1 + gam 4) * 2) * Rabs (V (A l (eQ e j)))) with
        ((gam 4 * (Rabs (V (eR e i l)) + sg) + eta64 * (1 + gam 4) * 2) * Rabs (V (A l (eQ e j)))) by ring. exact Q.
    - rewrite (sumn_lin m (gam 4) (gam 4 * sg + g * 2) (fun l => Rabs (V (eR e i l)) * Rabs (V (A l (eQ e j)))) (fun l => Rabs (V (A l (eQ e j))))).
      pose proof (S3 i j Hi Hj) as Q1. pose proof (Cb j Hj) as Q2.
      apply (Rmult_le_compat_l (gam 4)) in Q1; [|lra].
      assert (0 <= gam 4 * sg) by (apply Rmult_le_pos; lra). apply (Rmult_le_compat_l (gam 4 * sg + g * 2)) in Q2; lra. }
  assert (H2 : Rabs (canonical e' i j - canonical e i j) <= gam 4 * (mu + sg) + g * 2).
  { unfold FEchelon_spec.canonical. destruct (Nat.ltb_spec j nb).
    - rewrite Rminus_diag_eq, Rabs_R0 by reflexivity. assert (0 <= gam 4 * (mu + sg)) by (apply Rmult_le_pos; lra). lra.
    - assert (Hj' : (j - nb < nn)%nat) by lia.
      eapply Rle_trans; [apply (clean_err1 sg (eS e i (j - nb)%nat) sigma (proj2 Fe i _ Hi Hj') Fs Hs (proj2 Fe' i _ Hi Hj'))|]. fold g.
      apply Rplus_le_compat_r. apply Rmult_le_compat_l; [lra|]. pose proof (S2 i _ Hi Hj'). lra. }
  assert (Q : off e' i j = off e i j + sumn m (fun l => (V (eR e' i l) - V (eR e i l)) * V (A l (eQ e j))) - (canonical e' i j - canonical e i j)).
  { unfold FEchelon_spec.off. change (eQ e' j) with (eQ e j).
    rewrite (sumn_ext m (fun l => (V (eR e' i l) - V (eR e i l)) * V (A l (eQ e j))) (fun l => 1 * (V (eR e' i l) * V (A l (eQ e j))) + (-1) * (V (eR e i l) * V (A l (eQ e j))))) by (intros; ring).
    rewrite (sumn_lin m 1 (-1) (fun l => V (eR e' i l) * V (A l (eQ e j))) (fun l => V (eR e i l) * V (A l (eQ e j)))). ring. }
  rewrite Q. unfold Rminus at 1. eapply Rle_trans; [apply Rabs_triang|]. rewrite Rabs_Ropp.
  eapply Rle_trans; [apply Rplus_le_compat_r, Rabs_triang|]. pose proof (HW i j Hi Hj).
  unfold E, change_err. change (bpow radix2 (-1075)) with eta64. fold g.
  assert (P1 : gam 4 * (2 * mu + sg * (1 + al)) <= gam 4 * (2 * (1 + G) * mu + sg * (1 + al))).
  { apply Rmult_le_compat_l; [lra|]. assert (0 <= G * mu) by (apply Rmult_le_pos; lra). lra. }
  assert (P2 : g * (2 * (1 + al)) <= g * ((1 + al) * (2 + (1 + mu) * (1 + mu)))).
  { apply Rmult_le_compat_l; [lra|]. rewrite (Rmult_comm 2). apply Rmult_le_compat_l; [lra|]. assert (0 <= (1 + mu) * (1 + mu)) by (apply Rmult_le_pos; lra). lra. }
  lra.
Qed.

Lemma tame_head e ops : tame m nb nn A ms G sg mu al e ops -> numbers_in m nb nn e.
Proof. destruct ops; intros H; apply H. Qed.

Lemma run_drift ops : forall e D, 0 <= D -> tame m nb nn A ms G sg mu al e ops -> within D e ->
  within ((1 + G) ^ length ops * (D + INR (length ops) * E)) (f_run ms nb e ops).
Proof.
  pose proof E_pos as E0.
  induction ops as [|o ops IH]; intros e D HD (Fe & Sz & Cb & HT) HW.
  - intros i j Hi Hj. cbn [length pow INR f_run fold_left]. pose proof (HW i j Hi Hj). lra.
  - destruct HT as (Ho & HT). pose proof (tame_head _ _ HT) as Fe'.
    assert (Gd : 0 <= G * D) by (apply Rmult_le_pos; lra).
    assert (W' : within ((1 + G) * D + E) (f_step ms nb e o)).
    { destruct o as [ib jn|Kb Kn|sigma]; cbn [f_step] in *.
      - now apply swap_drift.
      - intros i j Hi Hj. pose proof (order_drift D e Kb Kn Ho HW i j Hi Hj). lra.
      - intros i j Hi Hj. pose proof (clean_drift D e sigma Fe Sz Cb Ho Fe' HW i j Hi Hj). lra. }
    intros i j Hi Hj. change (f_run ms nb e (o :: ops)) with (f_run ms nb (f_step ms nb e o) ops).
    assert (D1 : 0 <= (1 + G) * D + E) by lra.
    eapply Rle_trans; [apply (IH _ _ D1 HT W' i j Hi Hj)|].
    cbn [length]. rewrite S_INR, <- tech_pow_Rmult. set (k := INR (length ops)). assert (k0 : 0 <= k) by apply pos_INR.
    set (p := (1 + G) ^ length ops). assert (p0 : 0 <= p) by (apply pow_le; lra).
    replace ((1 + G) * p * (D + (k + 1) * E)) with (p * ((1 + G) * (D + (k + 1) * E))) by ring.
    apply Rmult_le_compat_l; [exact p0|].
    assert (0 <= G * E) by (apply Rmult_le_pos; lra). assert (0 <= G * (k * E)) by (apply Rmult_le_pos; [lra|]; apply Rmult_le_pos; lra).
    assert (0 <= k * E) by (apply Rmult_le_pos; lra). lra.
Qed.
End Drift.
End Main.
