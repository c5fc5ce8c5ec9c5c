(** The binary64 operations of [Num_b64] and the real numbers.  The operations of the standard
    library's specification of floating-point numbers are shown to agree with those of Flocq,
    whose theorems then give each finite result as the rounding of the exact one. *)
From Coq Require Import Reals ZArith List Bool Lia Lra.
From Coq Require Import Floats.SpecFloat.
From Flocq Require Import Core BinarySingleNaN Relative Plus_error.
From Verif Require Import Num Loop_model Round_spec.

Local Open Scope R_scope.

Notation p64 := prec64. Notation e64 := emax64.
#[local] Instance Hprec : Prec_gt_0 p64 := eq_refl.
#[local] Instance Hmax : Prec_lt_emax p64 e64 := eq_refl.

(** the rounding to nearest, ties to even *)
Notation fexp64 := (FLT_exp (-1074) 53).
Definition rnd (x : R) : R := round radix2 fexp64 ZnearestE x.

Lemma rne_equiv s m l : round_nearest_even m l = choice_mode mode_NE s m l.
Proof. case l; [reflexivity|intro c]. case c; [|reflexivity..]. now simpl; unfold Round.cond_incr; case Z.even. Qed.

Lemma round_aux_equiv sx mx ex lx :
  SpecFloat.binary_round_aux p64 e64 sx mx ex lx = binary_round_aux p64 e64 mode_NE sx mx ex lx.
Proof.
  unfold SpecFloat.binary_round_aux, binary_round_aux. set (mrse' := shr_fexp _ _ _ _ _).
  case mrse'; intros mrs' e'; simpl. now rewrite (rne_equiv sx).
Qed.

Lemma round_equiv s m e : SpecFloat.binary_round p64 e64 s m e = binary_round p64 e64 mode_NE s m e.
Proof. unfold SpecFloat.binary_round, binary_round, shl_align_fexp. set (mez := shl_align _ _ _); case mez as [mz ez]. apply round_aux_equiv. Qed.

Lemma normalize_equiv m e s :
  SpecFloat.binary_normalize p64 e64 m e s = B2SF (binary_normalize p64 e64 Hprec Hmax mode_NE m e s).
Proof. case m as [|q|q]; [now simpl|simpl; rewrite B2SF_SF2B; apply round_equiv..]. Qed.

Notation BF := (binary_float p64 e64).

Lemma mul_equiv (x y : BF) : nmul (B2SF x) (B2SF y) = B2SF (Bmult mode_NE x y).
Proof.
  case x as [sx|sx| |sx mx ex Bx]; case y as [sy|sy| |sy my ey By]; [now trivial..|].
  simpl. rewrite B2SF_SF2B. apply round_aux_equiv.
Qed.
Lemma add_equiv (x y : BF) : nadd (B2SF x) (B2SF y) = B2SF (Bplus mode_NE x y).
Proof.
  case x as [sx|sx| |sx mx ex Bx]; case y as [sy|sy| |sy my ey By]; [now (trivial || simpl; case Bool.eqb)..|].
  apply normalize_equiv.
Qed.
Lemma sub_equiv (x y : BF) : nsub (B2SF x) (B2SF y) = B2SF (Bminus mode_NE x y).
Proof.
  case x as [sx|sx| |sx mx ex Bx]; case y as [sy|sy| |sy my ey By]; [now (trivial || simpl; case Bool.eqb)..|].
  simpl. unfold Zminus. rewrite <- cond_Zopp_negb. apply normalize_equiv.
Qed.
Lemma div_equiv (x y : BF) : ndiv (B2SF x) (B2SF y) = B2SF (Bdiv mode_NE x y).
Proof.
  case x as [sx|sx| |sx mx ex Bx]; case y as [sy|sy| |sy my ey By]; [now (trivial || simpl; case Bool.eqb)..|].
  simpl. rewrite B2SF_SF2B. set (melz := SFdiv_core_binary _ _ _ _ _ _).
  case melz as [[mz ez] lz]. apply round_aux_equiv.
Qed.

Lemma to_B x : isfin x -> exists b : BF, x = B2SF b /\ is_finite b = true /\ V x = B2R b.
Proof.
  intros [H F]. exists (SF2B x H). rewrite B2SF_SF2B, is_finite_SF2B, B2R_SF2B. auto.
Qed.
Lemma of_B (b : BF) : is_finite b = true -> isfin (B2SF b) /\ V (B2SF b) = B2R b.
Proof.
  intros F. split; [split; [apply valid_binary_B2SF|]|].
  - now destruct b.
  - now destruct b.
Qed.

Lemma fexp_eq : fexp p64 e64 = fexp64.
Proof. reflexivity. Qed.

Lemma big_lt : bpow radix2 1023 < bpow radix2 e64.
Proof. apply bpow_lt. reflexivity. Qed.

Lemma rnd_bpow x (e : Z) : (-1074 <= e)%Z -> Rabs x <= bpow radix2 e -> Rabs (rnd x) <= bpow radix2 e.
Proof.
  intros He Hx. unfold rnd. apply abs_round_le_generic; try typeclasses eauto; [|exact Hx].
  apply generic_format_bpow. unfold FLT_exp. lia.
Qed.

Lemma small_ok x : Rabs x <= bpow radix2 1023 -> Rlt_bool (Rabs (round radix2 (fexp p64 e64) (round_mode mode_NE) x)) (bpow radix2 e64) = true.
Proof.
  intros Hx. apply Rlt_bool_true. apply Rle_lt_trans with (bpow radix2 1023); [|exact big_lt].
  apply (rnd_bpow x 1023); [lia|exact Hx].
Qed.

Lemma fmul x y : isfin x -> isfin y -> Rabs (V x * V y) <= bpow radix2 1023 -> isfin (nmul x y) /\ V (nmul x y) = rnd (V x * V y).
Proof.
  intros Fx Fy H. destruct (to_B _ Fx) as (a & -> & Fa & Ea), (to_B _ Fy) as (b & -> & Fb & Eb).
  rewrite Ea, Eb in *. rewrite mul_equiv.
  generalize (Bmult_correct p64 e64 _ _ mode_NE a b). rewrite small_ok by exact H. intros (E & F & _).
  rewrite Fa, Fb in F. destruct (of_B _ F) as [I ->]. split; [exact I|exact E].
Qed.
Lemma fadd x y : isfin x -> isfin y -> Rabs (V x + V y) <= bpow radix2 1023 -> isfin (nadd x y) /\ V (nadd x y) = rnd (V x + V y).
Proof.
  intros Fx Fy H. destruct (to_B _ Fx) as (a & -> & Fa & Ea), (to_B _ Fy) as (b & -> & Fb & Eb).
  rewrite Ea, Eb in *. rewrite add_equiv.
  generalize (Bplus_correct p64 e64 _ _ mode_NE a b Fa Fb). rewrite small_ok by exact H. intros (E & F & _).
  destruct (of_B _ F) as [I ->]. split; [exact I|exact E].
Qed.
Lemma fsub x y : isfin x -> isfin y -> Rabs (V x - V y) <= bpow radix2 1023 -> isfin (nsub x y) /\ V (nsub x y) = rnd (V x - V y).
Proof.
  intros Fx Fy H. destruct (to_B _ Fx) as (a & -> & Fa & Ea), (to_B _ Fy) as (b & -> & Fb & Eb).
  rewrite Ea, Eb in *. rewrite sub_equiv.
  generalize (Bminus_correct p64 e64 _ _ mode_NE a b Fa Fb). rewrite small_ok by exact H. intros (E & F & _).
  destruct (of_B _ F) as [I ->]. split; [exact I|exact E].
Qed.
Lemma fdiv x y : isfin x -> isfin y -> V y <> 0 -> Rabs (V x / V y) <= bpow radix2 1023 -> isfin (ndiv x y) /\ V (ndiv x y) = rnd (V x / V y).
Proof.
  intros Fx Fy N H. destruct (to_B _ Fx) as (a & -> & Fa & Ea), (to_B _ Fy) as (b & -> & Fb & Eb).
  rewrite Ea, Eb in *. rewrite div_equiv.
  generalize (Bdiv_correct p64 e64 _ _ mode_NE a b N). rewrite small_ok by exact H. intros (E & F & _).
  rewrite Fa in F. destruct (of_B _ F) as [I ->]. split; [exact I|exact E].
Qed.

Lemma rlt_bool x y : Rlt_bool x y = rltb x y.
Proof. unfold rltb. destruct (Rlt_dec x y) as [H|H]; [now apply Rlt_bool_true|apply Rlt_bool_false; lra]. Qed.
Lemma rle_bool x y : Rle_bool x y = rleb x y.
Proof. unfold rleb. destruct (Rle_dec x y) as [H|H]; [now apply Rle_bool_true|apply Rle_bool_false; lra]. Qed.

Lemma fltb x y : isfin x -> isfin y -> nltb x y = rltb (V x) (V y).
Proof.
  intros Fx Fy. destruct (to_B _ Fx) as (a & -> & Fa & Ea), (to_B _ Fy) as (b & -> & Fb & Eb).
  rewrite Ea, Eb, <- rlt_bool. exact (Bltb_correct p64 e64 a b Fa Fb).
Qed.
Lemma fleb x y : isfin x -> isfin y -> nleb x y = rleb (V x) (V y).
Proof.
  intros Fx Fy. destruct (to_B _ Fx) as (a & -> & Fa & Ea), (to_B _ Fy) as (b & -> & Fb & Eb).
  rewrite Ea, Eb, <- rle_bool. exact (Bleb_correct p64 e64 a b Fa Fb).
Qed.
Lemma feqb x y : isfin x -> isfin y -> neqb x y = reqb (V x) (V y).
Proof.
  intros Fx Fy. destruct (to_B _ Fx) as (a & -> & Fa & Ea), (to_B _ Fy) as (b & -> & Fb & Eb).
  rewrite Ea, Eb. transitivity (Beqb a b); [reflexivity|]. rewrite (Beqb_correct p64 e64 a b Fa Fb).
  unfold reqb. destruct (Req_EM_T (B2R a) (B2R b)) as [H|H]; [now apply Req_bool_true|now apply Req_bool_false].
Qed.

(** the values of binary64 numbers are exactly representable *)
Lemma V_format x : isfin x -> generic_format radix2 fexp64 (V x).
Proof.
  intros Fx. destruct (to_B _ Fx) as (a & -> & Fa & Ea). rewrite Ea. apply (generic_format_B2R p64 e64).
Qed.
Lemma rnd_V x : isfin x -> rnd (V x) = V x.
Proof. intros Fx. unfold rnd. apply round_generic; [typeclasses eauto|now apply V_format]. Qed.
Lemma rnd_le x y : x <= y -> rnd x <= rnd y.
Proof. intros H. unfold rnd. apply round_le; try typeclasses eauto. exact H. Qed.
Lemma rnd_0 : rnd 0 = 0.
Proof. unfold rnd. apply round_0. typeclasses eauto. Qed.
Lemma rnd_1 : rnd 1 = 1.
Proof. unfold rnd. apply round_generic; [typeclasses eauto|]. change 1 with (bpow radix2 0). apply generic_format_bpow. unfold FLT_exp. lia. Qed.
Lemma rnd_opp x : rnd (- x) = - rnd x.
Proof. unfold rnd. apply round_NE_opp. Qed.

(** the error of an addition or subtraction is relative; that of a product or a quotient is
    relative or absolute *)
Definition u64 : R := bpow radix2 (-53).
Definition eta64 : R := bpow radix2 (-1075).

Lemma rnd_err x : exists d e, Rabs d <= u64 /\ Rabs e <= eta64 /\ rnd x = x * (1 + d) + e.
Proof.
  destruct (error_N_FLT radix2 (-1074) 53 ltac:(lia) (fun z => negb (Z.even z)) x) as (d & e & Hd & He & _ & E).
  exists d, e. split; [|split].
  - apply Rle_trans with (1 := Hd). unfold u64. apply Req_le. change (/ 2) with (bpow radix2 (-1)). rewrite <- bpow_plus. reflexivity.
  - apply Rle_trans with (1 := He). unfold eta64. apply Req_le. change (/ 2) with (bpow radix2 (-1)). rewrite <- bpow_plus. reflexivity.
  - exact E.
Qed.

Lemma rnd_plus_err x y : generic_format radix2 fexp64 x -> generic_format radix2 fexp64 y ->
  exists d, Rabs d <= u64 /\ rnd (x + y) = (x + y) * (1 + d).
Proof.
  intros Fx Fy. destruct (FLT_plus_error_N_ex radix2 (-1074) 53 (fun z => negb (Z.even z)) x y Fx Fy) as (d & Hd & E).
  exists d. split; [|exact E]. apply Rle_trans with (1 := Hd).
  apply Rle_trans with (u_ro radix2 53); [apply u_rod1pu_ro_le_u_ro; lia|].
  unfold u_ro, u64. apply Req_le. change (/ 2) with (bpow radix2 (-1)). rewrite <- bpow_plus. reflexivity.
Qed.

Lemma rnd_sub_neq x y : isfin x -> isfin y -> V x <> V y -> rnd (V x - V y) <> 0.
Proof.
  intros Fx Fy N. unfold rnd, Rminus. apply round_plus_neq_0; try typeclasses eauto.
  - now apply V_format.
  - apply generic_format_opp. now apply V_format.
  - lra.
Qed.

Lemma xof_fin x : isfin x -> xof x = XF (V x).
Proof. intros [_ F]. destruct x; try discriminate; reflexivity. Qed.
Lemma valid_cases x : valid x -> isfin x \/ (exists s, x = S754_infinity s) \/ x = S754_nan.
Proof. intros H. destruct x; [left; split; auto|right; left; eauto|right; right; auto|left; split; auto]. Qed.

(** comparisons are those of the extended reals, in every case *)
Lemma xltb_of x y : valid x -> valid y -> nltb x y = nltb (xof x) (xof y).
Proof.
  intros Vx Vy.
  destruct (valid_cases _ Vx) as [Fx|[[s ->]| ->]], (valid_cases _ Vy) as [Fy|[[t ->]| ->]];
    try (rewrite (xof_fin _ Fx)); try (rewrite (xof_fin _ Fy)).
  - apply fltb; auto.
  - destruct x; try (now destruct Fx); destruct t; reflexivity.
  - destruct x; try (now destruct Fx); reflexivity.
  - destruct y; try (now destruct Fy); destruct s; reflexivity.
  - destruct s, t; reflexivity.
  - destruct s; reflexivity.
  - destruct y; try (now destruct Fy); reflexivity.
  - destruct t; reflexivity.
  - reflexivity.
Qed.
Lemma xleb_of x y : valid x -> valid y -> nleb x y = nleb (xof x) (xof y).
Proof.
  intros Vx Vy.
  destruct (valid_cases _ Vx) as [Fx|[[s ->]| ->]], (valid_cases _ Vy) as [Fy|[[t ->]| ->]];
    try (rewrite (xof_fin _ Fx)); try (rewrite (xof_fin _ Fy)).
  - apply fleb; auto.
  - destruct x; try (now destruct Fx); destruct t; reflexivity.
  - destruct x; try (now destruct Fx); reflexivity.
  - destruct y; try (now destruct Fy); destruct s; reflexivity.
  - destruct s, t; reflexivity.
  - destruct s; reflexivity.
  - destruct y; try (now destruct Fy); reflexivity.
  - destruct t; reflexivity.
  - reflexivity.
Qed.
Lemma xeqb_of x y : valid x -> valid y -> neqb x y = neqb (xof x) (xof y).
Proof.
  intros Vx Vy.
  destruct (valid_cases _ Vx) as [Fx|[[s ->]| ->]], (valid_cases _ Vy) as [Fy|[[t ->]| ->]];
    try (rewrite (xof_fin _ Fx)); try (rewrite (xof_fin _ Fy)).
  - apply feqb; auto.
  - destruct x; try (now destruct Fx); destruct t; reflexivity.
  - destruct x; try (now destruct Fx); reflexivity.
  - destruct y; try (now destruct Fy); destruct s; reflexivity.
  - destruct s, t; reflexivity.
  - destruct s; reflexivity.
  - destruct y; try (now destruct Fy); reflexivity.
  - destruct t; reflexivity.
  - reflexivity.
Qed.
Lemma isfin_valid x : isfin x -> valid x.
Proof. intros [H _]. exact H. Qed.
