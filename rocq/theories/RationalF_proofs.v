(** Proofs for C102: rational and rationalize on doubles with rounding errors. *)
From Coq Require Import Reals ZArith List Bool Lia Lra.
From Coq Require Import Floats.SpecFloat.
From Flocq Require Import Core BinarySingleNaN.
From Verif Require Import Num Step_proofs Rational_model Rational_proofs Round_spec Float_proofs FResidual_proofs.
Import ListNotations.
Local Open Scope R_scope.

(** ** The loop, when every comparison with a mediant other than p/q comes out as for p/q *)
Section Loop.
Context {T : Type} {N : Num T}.
Variables (x : T) (n p q : Z).
Hypothesis Hq : (1 <= q <= n)%Z.
Hypothesis Hg : Z.gcd p q = 1%Z.
Hypothesis Hlt : forall a b, (1 <= b <= 2 * n)%Z -> (0 <= a <= b)%Z -> (a * q < p * b)%Z ->
  neqb x (ndiv (nofZ a) (nofZ b)) = false /\ ngtb x (ndiv (nofZ a) (nofZ b)) = true.
Hypothesis Hgt : forall a b, (1 <= b <= 2 * n)%Z -> (0 <= a <= b)%Z -> (p * b < a * q)%Z ->
  neqb x (ndiv (nofZ a) (nofZ b)) = false /\ ngtb x (ndiv (nofZ a) (nofZ b)) = false.

Lemma same_fraction a b c d : (1 <= b)%Z -> (b * c - a * d = 1)%Z -> (a * q = p * b)%Z -> (a, b) = (p, q).
Proof.
  intros Hb U E.
  assert (G : Z.gcd a b = 1%Z).
  { apply Z.bezout_1_gcd. exists (- d)%Z, c. lia. }
  assert (D1 : (q | b)%Z).
  { apply (Z.gauss q p b); [exists a; lia|rewrite Z.gcd_comm; exact Hg]. }
  assert (D2 : (b | q)%Z).
  { apply (Z.gauss b a q); [exists p; lia|rewrite Z.gcd_comm; exact G]. }
  assert (B : b = q).
  { apply Z.divide_antisym_nonneg; try lia; assumption. }
  subst b. f_equal. nia.
Qed.

Lemma loop_recovers fuel : forall a b c d r,
  (1 <= b)%Z -> (1 <= d)%Z -> (0 <= a <= b)%Z -> (0 <= c <= d)%Z -> (b * c - a * d = 1)%Z ->
  (a * q <= p * b)%Z -> (p * d <= c * q)%Z -> (b <= n \/ d <= n)%Z ->
  farey_loop fuel x n a b c d = Some r -> r = (p, q).
Proof.
  induction fuel as [|fuel IH]; intros a b c d r Hb Hd Ha Hc U L R O E.
  - cbn [farey_loop] in E. destruct ((b <=? n)%Z && (d <=? n)%Z)%bool eqn:C; [discriminate|].
    destruct (b >? n)%Z eqn:Bn.
    + injection E as <-. assert (p * d = c * q)%Z.
      { destruct (Z.eq_dec (p * d) (c * q)) as [K|K]; [exact K|exfalso].
        destruct (Z.eq_dec (a * q) (p * b)) as [K2|K2].
        - pose proof (same_fraction a b c d Hb U K2) as S. injection S as -> ->. lia.
        - assert (q = b * (c * q - p * d) + d * (p * b - a * q))%Z by nia. nia. }
      apply (same_fraction c d (c - a) (d - b)); nia.
    + injection E as <-. assert (d > n)%Z by (apply andb_false_iff in C as [C|C]; lia).
      apply (same_fraction a b c d); [lia|lia|].
      destruct (Z.eq_dec (a * q) (p * b)) as [K|K]; [exact K|exfalso].
      destruct (Z.eq_dec (p * d) (c * q)) as [K2|K2].
      * assert (S : (c, d) = (p, q)) by (apply (same_fraction c d (c - a) (d - b)); nia). injection S as -> ->. lia.
      * assert (q = b * (c * q - p * d) + d * (p * b - a * q))%Z by nia. nia.
  - cbn [farey_loop] in E. destruct ((b <=? n)%Z && (d <=? n)%Z)%bool eqn:C.
    + apply andb_prop in C as [C1 C2].
      unfold mediant in E.
      destruct (Z.lt_trichotomy ((a + c) * q) (p * (b + d))) as [K|[K|K]].
      * destruct (Hlt (a + c) (b + d)) as [E1 E2]; [lia|lia|lia|]. rewrite E1, E2 in E.
        apply IH in E; [exact E|nia..].
      * assert (S : (a + c, b + d)%Z = (p, q)).
        { apply (same_fraction _ _ c d); nia. }
        injection S as S1 S2. rewrite S1, S2 in E.
        destruct (neqb x (ndiv (nofZ p) (nofZ q))).
        -- replace (q <=? n)%Z with true in E by lia. now injection E as <-.
        -- destruct (ngtb x (ndiv (nofZ p) (nofZ q))); apply IH in E; try exact E; nia.
      * destruct (Hgt (a + c) (b + d)) as [E1 E2]; [lia|lia|lia|]. rewrite E1, E2 in E.
        apply IH in E; [exact E|nia..].
    + destruct (b >? n)%Z eqn:Bn.
      * injection E as <-. assert (p * d = c * q)%Z.
        { destruct (Z.eq_dec (p * d) (c * q)) as [K|K]; [exact K|exfalso].
          destruct (Z.eq_dec (a * q) (p * b)) as [K2|K2].
          - pose proof (same_fraction a b c d Hb U K2) as S. injection S as -> ->. lia.
          - assert (q = b * (c * q - p * d) + d * (p * b - a * q))%Z by nia. nia. }
        apply (same_fraction c d (c - a) (d - b)); nia.
      * injection E as <-. assert (d > n)%Z by (apply andb_false_iff in C as [C|C]; lia).
        apply (same_fraction a b c d); [lia|lia|].
        destruct (Z.eq_dec (a * q) (p * b)) as [K|K]; [exact K|exfalso].
        destruct (Z.eq_dec (p * d) (c * q)) as [K2|K2].
        -- assert (S : (c, d) = (p, q)) by (apply (same_fraction c d (c - a) (d - b)); nia). injection S as -> ->. lia.
        -- assert (q = b * (c * q - p * d) + d * (p * b - a * q))%Z by nia. nia.
Qed.

Lemma farey_recovers fuel : (0 <= p <= q)%Z -> (2 * n <= Z.of_nat fuel)%Z -> farey fuel x n = Some (p, q).
Proof.
  intros Hp Hf. destruct (farey fuel x n) as [r|] eqn:E.
  - f_equal. apply (loop_recovers fuel 0 1 1 1 r) in E; [exact E|lia..].
  - exfalso. revert E. apply farey_ends; lia.
Qed.
End Loop.

(** ** Distinct fractions are at least 1/(2n^2) apart *)
Lemma gap a b p q n : (1 <= b <= 2 * n)%Z -> (1 <= q <= n)%Z -> (a * q < p * b)%Z ->
  IZR a / IZR b + / (2 * (IZR n * IZR n)) <= IZR p / IZR q.
Proof.
  intros Hb Hq L.
  assert (B : 1 <= IZR b <= 2 * IZR n) by (rewrite <- mult_IZR; split; apply IZR_le; lia).
  assert (Q : 1 <= IZR q <= IZR n) by (split; apply IZR_le; lia).
  assert (L' : IZR a * IZR q + 1 <= IZR p * IZR b) by (rewrite <- !mult_IZR, <- plus_IZR; apply IZR_le; lia).
  apply Rle_trans with (IZR a / IZR b + / (IZR b * IZR q)).
  - apply Rplus_le_compat_l. apply Rinv_le; [nra|]. nra.
  - apply Rmult_le_reg_r with (IZR b * IZR q); [nra|]. field_simplify; [|lra..]. lra.
Qed.

(** ** Integers as doubles *)
Lemma ofZ_V z : (Z.abs z < 2 ^ 53)%Z -> isfin (nofZ z : spec_float) /\ V (nofZ z : spec_float) = IZR z.
Proof.
  intros Hz.
  assert (F : generic_format radix2 fexp64 (IZR z)).
  { apply generic_format_FLT. exists (Float radix2 z 0); [unfold F2R; cbn; lra|exact Hz|cbn; lia]. }
  pose proof (binary_normalize_correct p64 e64 Hprec Hmax mode_NE z 0 false) as C.
  assert (E : F2R (Float radix2 z 0) = IZR z) by (unfold F2R; cbn; lra).
  cbv zeta in C. rewrite E in C. rewrite fexp_eq in C. rewrite round_generic in C; [|typeclasses eauto|exact F].
  assert (B : Rabs (IZR z) < bpow radix2 1024).
  { apply Rlt_trans with (bpow radix2 53); [|now apply bpow_lt].
    rewrite <- abs_IZR. change (bpow radix2 53) with (IZR (2 ^ 53)). now apply IZR_lt. }
  rewrite Rlt_bool_true in C by exact B. destruct C as [C1 [C2 _]].
  change (nofZ z : spec_float) with (SpecFloat.binary_normalize p64 e64 z 0 false).
  rewrite normalize_equiv. destruct (of_B _ C2) as [G1 G2]. split; [exact G1|now rewrite G2].
Qed.

(** a quotient of at most one *)
Lemma rnd_unit x : Rabs x <= 1 -> Rabs (rnd x - x) <= u64 + eta64.
Proof.
  intros B. destruct (rnd_err x) as (d & e & Hd & He & ->).
  replace (x * (1 + d) + e - x) with (x * d + e) by ring.
  apply Rle_trans with (1 := Rabs_triang _ _). rewrite Rabs_mult.
  pose proof (Rabs_pos d). pose proof (Rabs_pos x). nra.
Qed.
Lemma one_bound x : Rabs x <= 1 -> Rabs x <= bpow radix2 1023.
Proof. intros B. apply Rle_trans with (1 := B). change 1 with (bpow radix2 0). now apply bpow_le. Qed.
Lemma quot_V a b : (1 <= b < 2 ^ 53)%Z -> (0 <= a <= b)%Z ->
  isfin (ndiv (nofZ a) (nofZ b) : spec_float) /\
  V (ndiv (nofZ a) (nofZ b)) = rnd (IZR a / IZR b) /\
  Rabs (V (ndiv (nofZ a) (nofZ b)) - IZR a / IZR b) <= u64 + eta64.
Proof.
  intros Hb Ha. destruct (ofZ_V a ltac:(lia)) as [Fa Ea]. destruct (ofZ_V b ltac:(lia)) as [Fb Eb].
  assert (B : 1 <= IZR b) by (apply IZR_le; lia).
  assert (A : 0 <= IZR a <= IZR b) by (split; apply IZR_le; lia).
  assert (O : Rabs (IZR a / IZR b) <= 1).
  { rewrite Rabs_pos_eq by (unfold Rdiv; apply Rmult_le_pos; [lra|apply Rlt_le, Rinv_0_lt_compat; lra]).
    apply Rmult_le_reg_r with (IZR b); [lra|]. unfold Rdiv. rewrite Rmult_assoc, Rinv_l by lra. lra. }
  destruct (fdiv _ _ Fa Fb) as [F E]; [rewrite Eb; lra|rewrite Ea, Eb; now apply one_bound|].
  rewrite Ea, Eb in E. split; [exact F|]. split; [exact E|]. rewrite E. now apply rnd_unit.
Qed.
Lemma tiny_err n : (1 <= n <= 2 ^ 25)%Z -> u64 + eta64 <= 15 / 100 * / (IZR n * IZR n).
Proof.
  intros Hn.
  assert (N : 1 <= IZR n <= IZR (2 ^ 25)) by (split; apply IZR_le; lia).
  assert (I : / (IZR (2 ^ 25) * IZR (2 ^ 25)) <= / (IZR n * IZR n)) by (apply Rinv_le; nra).
  assert (E : eta64 <= bpow radix2 (-60)) by (apply bpow_le; lia).
  unfold u64. change (bpow radix2 (-53)) with (/ 9007199254740992). change (bpow radix2 (-60)) with (/ 1152921504606846976) in E.
  change (IZR (2 ^ 25)) with 33554432 in I. lra.
Qed.

(** ** farey on a double near p/q *)
Lemma farey_b64 fuel x n p q : isfin x -> (1 <= q <= n)%Z -> (0 <= p <= q)%Z -> Z.gcd p q = 1%Z ->
  (n <= 2 ^ 25)%Z -> (2 * n <= Z.of_nat fuel)%Z ->
  Rabs (V x - IZR p / IZR q) <= 3 / 10 * / (IZR n * IZR n) -> farey fuel x n = Some (p, q).
Proof.
  intros Fx Hq Hp Hg Hn Hf C.
  assert (T := tiny_err n ltac:(lia)).
  assert (I : 0 < / (IZR n * IZR n)).
  { assert (1 <= IZR n) by (apply IZR_le; lia). apply Rinv_0_lt_compat. nra. }
  assert (I2 : / (2 * (IZR n * IZR n)) = / 2 * / (IZR n * IZR n)).
  { assert (1 <= IZR n) by (apply IZR_le; lia). field. lra. }
  apply farey_recovers; try assumption.
  - intros a b Hb Ha L. destruct (quot_V a b ltac:(lia) Ha) as (Fm & _ & Em).
    pose proof (gap a b p q n Hb Hq L) as G. rewrite I2 in G.
    apply Rabs_le_inv in C. apply Rabs_le_inv in Em.
    rewrite feqb by assumption. unfold ngtb. rewrite fltb by assumption.
    unfold reqb, rltb. split; [destruct (Req_EM_T _ _); [lra|reflexivity]|destruct (Rlt_dec _ _); [reflexivity|lra]].
  - intros a b Hb Ha L. destruct (quot_V a b ltac:(lia) Ha) as (Fm & _ & Em).
    assert (G : IZR p / IZR q + / (2 * (IZR n * IZR n)) <= IZR a / IZR b).
    { assert (B : 1 <= IZR b <= 2 * IZR n) by (rewrite <- mult_IZR; split; apply IZR_le; lia).
      assert (Q : 1 <= IZR q <= IZR n) by (split; apply IZR_le; lia).
      assert (L' : IZR p * IZR b + 1 <= IZR a * IZR q) by (rewrite <- !mult_IZR, <- plus_IZR; apply IZR_le; lia).
      apply Rle_trans with (IZR p / IZR q + / (IZR b * IZR q)).
      - apply Rplus_le_compat_l. apply Rinv_le; nra.
      - apply Rmult_le_reg_r with (IZR b * IZR q); [nra|]. field_simplify; [|lra..]. lra. }
    rewrite I2 in G. apply Rabs_le_inv in C. apply Rabs_le_inv in Em.
    rewrite feqb by assumption. unfold ngtb. rewrite fltb by assumption.
    unfold reqb, rltb. split; [destruct (Req_EM_T _ _); [lra|reflexivity]|destruct (Rlt_dec _ _); [lra|reflexivity]].
Qed.

Lemma fin_one : isfin (none1 : spec_float) /\ V (none1 : spec_float) = 1.
Proof. exact (ofZ_V 1 eq_refl). Qed.

Lemma rational_b64 fuel x n p q : isfin x -> (1 <= q <= n)%Z -> (Z.abs p <= n)%Z -> Z.gcd p q = 1%Z ->
  (n <= 2 ^ 25)%Z -> (2 * n <= Z.of_nat fuel)%Z ->
  Rabs (V x - IZR p / IZR q) <= Rmax 1 (Rabs (V x)) / (8 * (IZR n * IZR n)) -> rational fuel x n = Some (p, q).
Proof.
  intros Fx Hq Hp Hg Hn Hf C.
  destruct fin_one as [F1 E1].
  assert (N1 : 1 <= IZR n) by (apply IZR_le; lia).
  assert (Q : 1 <= IZR q <= IZR n) by (split; apply IZR_le; lia).
  set (iq := / IZR q).
  assert (Iq : IZR q * iq = 1) by (apply Rinv_r; lra).
  assert (Iqp : 0 < iq) by (apply Rinv_0_lt_compat; lra).
  set (i2 := / (IZR n * IZR n)) in *.
  assert (Ip : 0 < i2) by (apply Rinv_0_lt_compat; nra).
  assert (In : IZR n * IZR n * i2 = 1) by (apply Rinv_r; nra).
  assert (I1 : i2 <= iq).
  { apply Rinv_le; nra. }
  assert (Ile : i2 <= 1) by nra.
  assert (C' : Rabs (V x - IZR p * iq) <= Rmax 1 (Rabs (V x)) * (i2 / 8)).
  { replace (i2 / 8) with (/ (8 * (IZR n * IZR n))) by (unfold i2; field; lra). exact C. }
  clear C.
  assert (Ap : IZR (Z.abs p) = Rabs (IZR p)) by apply abs_IZR.
  assert (D : Rabs (Rabs (V x) - IZR (Z.abs p) * iq) <= Rmax 1 (Rabs (V x)) * (i2 / 8)).
  { apply Rle_trans with (2 := C'). rewrite Ap.
    replace (Rabs (IZR p) * iq) with (Rabs (IZR p * iq)) by (rewrite Rabs_mult, (Rabs_pos_eq iq) by lra; reflexivity).
    apply Rabs_triang_inv2. }
  assert (Sg : p <> 0%Z -> (if ngeb x nzero then 1 else -1)%Z = Z.sgn p).
  { intros P0. unfold ngeb. destruct (ofZ_V 0 eq_refl) as [F0 E0].
    change (nzero : spec_float) with (nofZ 0 : spec_float). rewrite fleb by assumption. rewrite E0.
    assert (M : Rmax 1 (Rabs (V x)) <= 1 + Rabs (V x)) by (apply Rmax_lub; pose proof (Rabs_pos (V x)); lra).
    assert (P8 : 0 <= i2 / 8) by lra.
    assert (C2 := Rle_trans _ _ _ C' (Rmult_le_compat_r _ _ _ P8 M)).
    unfold rleb. destruct (Z.lt_trichotomy p 0) as [K|[K|K]]; [|lia|].
    - assert (IZR p <= -1) by (apply IZR_le; lia).
      destruct (Rle_dec 0 (V x)) as [H0|H0]; [exfalso|rewrite Z.sgn_neg; lia].
      rewrite (Rabs_pos_eq (V x)) in C2 by lra. apply Rabs_le_inv in C2. nra.
    - assert (1 <= IZR p) by (apply IZR_le; lia).
      destruct (Rle_dec 0 (V x)) as [H0|H0]; [rewrite Z.sgn_pos; lia|exfalso].
      rewrite (Rabs_left (V x)) in C2 by lra. apply Rabs_le_inv in C2. nra. }
  unfold rational. unfold ngtb at 1.
  assert (Fa := fin_abs' x Fx). assert (Va := V_abs x Fx).
  rewrite fltb by assumption. rewrite E1, Va. unfold rltb.
  destruct (Rlt_dec 1 (Rabs (V x))) as [G|G].
  - rewrite Rmax_right in D by lra.
    set (X := Rabs (V x)) in *.
    assert (P0 : p <> 0%Z).
    { intros ->. change (IZR (Z.abs 0)) with 0 in D. rewrite Rmult_0_l, Rminus_0_r, Rabs_pos_eq in D by lra. nra. }
    assert (D2 := Rabs_le_inv _ _ D).
    assert (Pq : (q <= Z.abs p)%Z).
    { destruct (Z_lt_le_dec (Z.abs p) q) as [K|K]; [exfalso|exact K].
      assert (IZR (Z.abs p) + 1 <= IZR q) by (rewrite <- plus_IZR; apply IZR_le; lia).
      assert (IZR (Z.abs p) * iq <= 1 - iq) by nra. nra. }
    assert (Pn : 1 <= IZR (Z.abs p)) by (apply IZR_le; lia).
    destruct (fdiv none1 (nabs x) F1 Fa) as [Fy Ey].
    { rewrite Va. apply Rgt_not_eq. lra. }
    { rewrite E1, Va. apply one_bound. fold X. unfold Rdiv. rewrite Rmult_1_l, Rabs_pos_eq.
      - apply Rmult_le_reg_r with X; [lra|]. rewrite Rinv_l by lra. lra.
      - apply Rlt_le, Rinv_0_lt_compat; lra. }
    rewrite E1, Va in Ey. fold X in Ey.
    assert (R : farey fuel (ndiv none1 (nabs x)) n = Some (q, Z.abs p)).
    { apply farey_b64; [exact Fy|lia|lia| |lia|lia|].
      - rewrite Z.gcd_comm, Z.gcd_abs_l. exact Hg.
      - rewrite Ey. fold i2.
        assert (B1 : Rabs (1 / X) <= 1).
        { unfold Rdiv. rewrite Rmult_1_l, Rabs_pos_eq by (apply Rlt_le, Rinv_0_lt_compat; lra).
          apply Rmult_le_reg_r with X; [lra|]. rewrite Rinv_l by lra. lra. }
        pose proof (rnd_unit _ B1) as T1. pose proof (tiny_err n ltac:(lia)) as T2. fold i2 in T2.
        assert (T3 : Rabs (1 / X - IZR q / IZR (Z.abs p)) <= i2 / 8).
        { replace (1 / X - IZR q / IZR (Z.abs p)) with (- ((X - IZR (Z.abs p) * iq) * (/ X * (IZR q * / IZR (Z.abs p))))).
          2:{ unfold iq. field. repeat split; lra. }
          rewrite Rabs_Ropp, Rabs_mult.
          assert (0 < / X) by (apply Rinv_0_lt_compat; lra).
          assert (0 < / IZR (Z.abs p)) by (apply Rinv_0_lt_compat; lra).
          assert (IZR q * / IZR (Z.abs p) <= 1).
          { assert (IZR q <= IZR (Z.abs p)) by (apply IZR_le; lia).
            apply Rmult_le_reg_r with (IZR (Z.abs p)); [lra|]. rewrite Rmult_assoc, Rinv_l by lra. lra. }
          assert (0 < IZR q * / IZR (Z.abs p)) by nra.
          rewrite (Rabs_pos_eq (/ X * _)) by nra.
          apply Rle_trans with (X * (i2 / 8) * (/ X * (IZR q * / IZR (Z.abs p)))).
          - apply Rmult_le_compat_r; [nra|exact D].
          - replace (X * (i2 / 8) * (/ X * (IZR q * / IZR (Z.abs p)))) with ((i2 / 8) * (IZR q * / IZR (Z.abs p))) by (field; split; lra).
            nra. }
        apply Rabs_le_inv in T1. apply Rabs_le_inv in T3. apply Rabs_le. lra. }
    rewrite R, Sg by exact P0. f_equal. f_equal. lia.
  - rewrite Rmax_left in D by lra.
    set (X := Rabs (V x)) in *. assert (X0 : 0 <= X) by apply Rabs_pos.
    assert (D2 := Rabs_le_inv _ _ D).
    assert (Pq : (Z.abs p <= q)%Z).
    { destruct (Z_lt_le_dec q (Z.abs p)) as [K|K]; [exfalso|exact K].
      assert (IZR q + 1 <= IZR (Z.abs p)) by (rewrite <- plus_IZR; apply IZR_le; lia).
      assert (1 + iq <= IZR (Z.abs p) * iq) by nra. lra. }
    assert (R : farey fuel (nabs x) n = Some (Z.abs p, q)).
    { apply farey_b64; [exact Fa|lia|lia| |lia|lia|].
      - rewrite Z.gcd_abs_l. exact Hg.
      - rewrite Va. fold X. fold i2. change (IZR (Z.abs p) / IZR q) with (IZR (Z.abs p) * iq). apply Rabs_le. lra. }
    rewrite R. destruct (Z.eq_dec p 0) as [->|P0].
    + f_equal. f_equal. lia.
    + rewrite Sg by exact P0. f_equal. f_equal. lia.
Qed.
