(** Order facts shared by the three number instances. *)
From Coq Require Import List Arith Bool ZArith Reals Lra Lia.
From Coq Require Import Floats.SpecFloat.
From Verif Require Import Num Index_spec Index_proofs.

(** [<] and [<=] agree on numbers that are not NaN *)
Class NumTot (T : Type) {N : Num T} : Prop := {
  ntot : forall a b, nnan a = false -> nnan b = false -> nltb a b = false -> nleb b a = true;
  nlt_le : forall a b, nltb a b = true -> nleb a b = true;
  nlt_irrefl : forall a, nltb a a = false;
  nle_nan : forall a b, nleb a b = true -> nnan a = false /\ nnan b = false
}.

#[export] Instance NumTot_R : NumTot R.
Proof.
  split; simpl; unfold rltb, rleb; intros.
  - destruct (Rlt_dec a b), (Rle_dec b a); try congruence; lra.
  - destruct (Rlt_dec a b), (Rle_dec a b); try congruence; lra.
  - destruct (Rlt_dec a a); [lra|reflexivity].
  - split; reflexivity.
Qed.

#[export] Instance NumTot_xreal : NumTot xreal.
Proof.
  split.
  - intros [a| | |] [b| | |]; simpl; try congruence. intros _ _. exact (@ntot R _ _ a b eq_refl eq_refl).
  - intros [a| | |] [b| | |]; simpl; try congruence. exact (@nlt_le R _ _ a b).
  - intros [a| | |]; simpl; try congruence. exact (@nlt_irrefl R _ _ a).
  - intros [a| | |] [b| | |]; simpl; intros H; try discriminate; split; reflexivity.
Qed.

Lemma SFcompare_nan a b : SFcompare a b = None <-> (a = S754_nan \/ b = S754_nan).
Proof.
  split.
  - destruct a as [s|s| |s m e], b as [s'|s'| |s' m' e']; simpl; try tauto; try congruence;
      try (destruct s, s'; congruence); try (destruct s; congruence); try (destruct s'; congruence).
  - intros [->| ->]; [reflexivity|]. destruct a; reflexivity.
Qed.

Lemma SFcompare_refl a : a <> S754_nan -> SFcompare a a = Some Eq.
Proof.
  destruct a as [s|s| |s m e]; simpl; intros H; try reflexivity; try congruence.
  - destruct s; reflexivity.
  - rewrite Z.compare_refl. change (Pos.compare_cont Eq m m) with (Pos.compare m m).
    rewrite Pos.compare_refl. destruct s; reflexivity.
Qed.

#[export] Instance NumTot_b64 : NumTot spec_float.
Proof.
  split; simpl; unfold SFltb, SFleb.
  - intros a b Ha Hb. rewrite (SFcompare_antisym a b).
    pose proof (SFcompare_nan a b) as H.
    destruct (SFcompare a b) as [[]|]; try congruence.
    destruct (proj1 H eq_refl); subst; discriminate.
  - intros a b. destruct (SFcompare a b) as [[]|]; congruence.
  - intros a. destruct a as [s|s| |s m e] eqn:E; try reflexivity.
    + destruct s; reflexivity.
    + rewrite <- E. rewrite SFcompare_refl by (subst; discriminate). reflexivity.
  - intros a b. pose proof (SFcompare_nan a b) as H. destruct (SFcompare a b) as [c|]; [|discriminate].
    intros _. split; [destruct a|destruct b]; try reflexivity; exfalso;
      [discriminate (proj2 H (or_introl eq_refl))|discriminate (proj2 H (or_intror eq_refl))].
Qed.

(** Clipping to [lo,hi] by std::max then std::min: the result is in the box
    unless it is NaN *)
Lemma clip_within {T} {N : Num T} {NT : NumTot T} (c lo hi : T) :
  nleb lo hi = true -> let r := nmin (nmax c lo) hi in
  nnan r = false -> nleb lo r = true /\ nleb r hi = true.
Proof.
  intros H r Hr. destruct (nle_nan _ _ H) as [Hlo Hhi].
  assert (Hm : nnan (nmax c lo) = false -> nleb lo (nmax c lo) = true).
  { unfold nmax. destruct (nltb c lo) eqn:E; intros Hn.
    - apply ntot; [assumption|assumption|apply nlt_irrefl].
    - apply ntot; assumption. }
  revert Hr. subst r. generalize dependent (nmax c lo). intros m Hm.
  unfold nmin. destruct (nltb hi m) eqn:E; intros Hr.
  - split; [exact H|]. apply ntot; [assumption|assumption|apply nlt_irrefl].
  - split; [apply Hm, Hr|]. apply ntot; assumption.
Qed.
