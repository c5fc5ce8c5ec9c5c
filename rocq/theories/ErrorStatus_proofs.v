(** Lemmas for the error status. *)
From Coq Require Import Reals ZArith List Bool Lia Lra.
From Coq Require Import Floats.SpecFloat.
From Flocq Require Import Core BinarySingleNaN.
From Verif Require Import Num Step_proofs Round_spec Float_proofs Round_proofs FSum_proofs ErrorStatus_model.
Import ListNotations.
Local Open Scope R_scope.
#[local] Existing Instance Hprec.
#[local] Existing Instance Hmax.

Lemma run_updates {T} {N : Num T} es : forall s, let f := es_run s (map Update es) in
  es_opts f = es_opts s /\ es_err f = last es (es_err s) /\
  (es <> [] -> es_prev f = last (removelast es) (es_err s)).
Proof.
  induction es as [|e es IH]; intros s; cbn zeta; [repeat split; congruence|].
  cbn [map es_run fold_left]. fold (es_run (es_do s (Update e)) (map Update es)). destruct (IH (es_do s (Update e))) as (H1 & H2 & H3).
  rewrite H1, H2. cbn [es_do es_update es_opts es_err] in *. split; [reflexivity|]. split.
  - destruct es; [reflexivity|]. cbn [last]. clear. revert t. induction es as [|b es IH]; intros a; [reflexivity|]. cbn [last] in *. apply IH.
  - intros _. destruct es as [|b es]; [reflexivity|]. rewrite H3 by discriminate. change (removelast (e :: b :: es)) with (e :: removelast (b :: es)).
    set (l := removelast (b :: es)). clear. revert e. destruct l as [|c l]; intros e; [reflexivity|].
    change (last (e :: c :: l) (es_err s)) with (last (c :: l) (es_err s)). revert c. induction l as [|a l IH]; intros c; [reflexivity|]. cbn [last] in *. apply IH.
Qed.

Lemma good_cases x : valid x -> nleb nzero x = true -> x = S754_infinity false \/ (isfin x /\ 0 <= V x).
Proof.
  intros Vx. rewrite xleb_of by (auto; reflexivity). destruct (valid_cases _ Vx) as [F|[[s ->]| ->]].
  - rewrite (xof_fin _ F). change (xof nzero) with (XF 0). cbn. intros H. apply rleb_true in H. auto.
  - destruct s; cbn; [discriminate|auto].
  - discriminate.
Qed.
Lemma mul_inf f : isfin f -> 0 < V f -> nmul f (S754_infinity false) = S754_infinity false.
Proof.
  intros [_ F] P. destruct f as [s| | |s m e]; try discriminate.
  - cbn in P. lra.
  - destruct s; [|reflexivity]. exfalso. unfold V, SF2R, F2R in P. cbn [Fnum Fexp cond_Zopp] in P.
    pose proof (bpow_gt_0 radix2 e). assert (IZR (Z.opp (Z.pos m)) < 0) by (apply IZR_lt; lia). nra.
Qed.
Lemma sign_pos (a : BF) : is_finite a = true -> 0 < B2R a -> Bsign a = false.
Proof.
  destruct a as [s|s| |s m e H]; cbn; intros F P; try discriminate; [lra|]. destruct s; [|reflexivity]. exfalso.
  unfold F2R in P. cbn [Fnum Fexp cond_Zopp] in P.
  pose proof (bpow_gt_0 radix2 e). assert (IZR (Z.opp (Z.pos m)) < 0) by (apply IZR_lt; lia). nra.
Qed.
Lemma mul_pos f x : isfin f -> isfin x -> 0 < V f -> 0 <= V x ->
  nmul f x = S754_infinity false \/ (isfin (nmul f x) /\ V (nmul f x) = rnd (V f * V x)).
Proof.
  intros Ff Fx Pf Px. destruct (Req_dec (V x) 0) as [Z|Z].
  { right. apply fmul; auto. rewrite Z, Rmult_0_r, Rabs_R0. apply bpow_ge_0. }
  destruct (to_B _ Ff) as (a & -> & Fa & Ea), (to_B _ Fx) as (b & -> & Fb & Eb). rewrite Ea, Eb in *. rewrite mul_equiv.
  generalize (Bmult_correct p64 e64 _ _ mode_NE a b). destruct (Rlt_bool _ _).
  - intros (E & F & _). rewrite Fa, Fb in F. destruct (of_B _ F) as [I ->]. right. split; [exact I|exact E].
  - intros E. left. rewrite E, (sign_pos a Fa Pf), (sign_pos b Fb) by lra. reflexivity.
Qed.

(** a decrease by a factor of at most 1 is a decrease *)
Lemma dec_sig f x e : isfin f -> 0 < V f <= 1 -> valid x -> valid e -> nleb nzero x = true ->
  nltb e (nmul f x) = true -> nltb e x = true.
Proof.
  intros Ff Pf Vx Ve Px H. destruct (good_cases x Vx Px) as [->|[Fx Qx]].
  { rewrite mul_inf in H by (auto; lra). exact H. }
  destruct (mul_pos f x Ff Fx (proj1 Pf) Qx) as [E|[Fm Em]].
  - (* no overflow: the product is at most x *)
    exfalso. destruct (to_B _ Ff) as (a & Ea' & Fa & Ea), (to_B _ Fx) as (b & Eb' & Fb & Eb). subst f x. rewrite Ea, Eb in *.
    rewrite mul_equiv in E. generalize (Bmult_correct p64 e64 _ _ mode_NE a b).
    rewrite Rlt_bool_true.
    + intros (_ & F & _). rewrite Fa, Fb in F. destruct (Bmult mode_NE a b); discriminate.
    + apply Rle_lt_trans with (Rabs (B2R b)); [|apply abs_B2R_lt_emax].
      change (Rabs (rnd (B2R a * B2R b)) <= Rabs (B2R b)).
      unfold rnd. apply abs_round_le_generic; try typeclasses eauto.
      * apply generic_format_abs. rewrite <- Eb. apply V_format. apply of_B. exact Fb.
      * rewrite (Rabs_pos_eq (B2R b)) by exact Qx. rewrite Rabs_mult, (Rabs_pos_eq (B2R b)), Rabs_pos_eq by lra. nra.
  - assert (L : V (nmul f x) <= V x).
    { rewrite Em. apply Rle_trans with (rnd (V x)); [apply rnd_le; nra|rewrite rnd_V by exact Fx; lra]. }
    revert H. rewrite !xltb_of by (auto; apply Fm). rewrite (xof_fin _ Fm), (xof_fin _ Fx). destruct (xof e); cbn [nltb Num_xreal xltb]; try discriminate; auto.
    intros H. apply rltb_true in H. apply rltb_true. lra.
Qed.
Lemma inc_sig f x e : isfin f -> 1 <= V f -> valid x -> valid e -> nleb nzero x = true ->
  nltb (nmul f x) e = true -> nltb x e = true.
Proof.
  intros Ff Pf Vx Ve Px H. destruct (good_cases x Vx Px) as [->|[Fx Qx]].
  { rewrite mul_inf in H by (auto; lra). exact H. }
  destruct (mul_pos f x Ff Fx ltac:(lra) Qx) as [E|[Fm Em]].
  - rewrite E in H. revert H. rewrite xltb_of by (auto; reflexivity). cbn. destruct (xof e); discriminate.
  - assert (L : V x <= V (nmul f x)).
    { rewrite Em. apply Rle_trans with (rnd (V x)); [rewrite rnd_V by exact Fx; lra|apply rnd_le; nra]. }
    revert H. rewrite !xltb_of by (auto; apply Fm). rewrite (xof_fin _ Fm), (xof_fin _ Fx). destruct (xof e); cbn [nltb Num_xreal xltb]; try discriminate; auto.
    intros H. apply rltb_true in H. apply rltb_true. lra.
Qed.
