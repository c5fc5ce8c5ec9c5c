From Coq Require Import List Arith Bool ZArith Znumtheory Reals Lra Lia Psatz.
Import ListNotations.
From Verif Require Import Num Index_spec Index_proofs Num_facts Step_proofs Minimize_proofs Rational_model.
Local Open Scope Z_scope.

(** ** Facts that hold whatever the comparisons answer *)
Section AnyNumber.
Context {T : Type} {N : Num T}.
Variables (x : T) (n : Z).

(** The loop ends after at most 2n steps and every integer it forms is at most 2n. *)
Lemma farey_loop_ends : forall fuel a b c d, 1 <= b -> 1 <= d ->
  2 * n + 2 - b - d <= Z.of_nat fuel -> farey_loop fuel x n a b c d <> None.
Proof.
  induction fuel as [|fuel IH]; intros a b c d Hb Hd Hf; cbn [farey_loop].
  - destruct (Z.leb_spec b n), (Z.leb_spec d n); cbn [andb]; try (destruct (b >? n); discriminate).
    exfalso. lia.
  - destruct ((b <=? n) && (d <=? n)) eqn:E; [|destruct (b >? n); discriminate].
    destruct (neqb x (mediant a b c d)); [destruct (b + d <=? n); [discriminate|destruct (d >? b); discriminate]|].
    destruct (ngtb x (mediant a b c d)); apply IH; lia.
Qed.

Lemma farey_ends fuel : 0 <= n -> 2 * n <= Z.of_nat fuel -> farey fuel x n <> None.
Proof. intros Hn Hf. apply farey_loop_ends; lia. Qed.

(** Invariant of the bracket, for any answers *)
Definition fbracket (a b c d : Z) : Prop :=
  0 <= a <= b /\ 0 <= c <= d /\ 1 <= b /\ 1 <= d /\ b * c - a * d = 1.

Lemma fbracket_left a b c d : fbracket a b c d -> fbracket (a + c) (b + d) c d.
Proof. unfold fbracket. intros. nia. Qed.
Lemma fbracket_right a b c d : fbracket a b c d -> fbracket a b (a + c) (b + d).
Proof. unfold fbracket. intros. nia. Qed.
Lemma fbracket_init : fbracket 0 1 1 1.
Proof. unfold fbracket. lia. Qed.

Lemma fbracket_gcd a b c d : fbracket a b c d ->
  Z.gcd a b = 1 /\ Z.gcd c d = 1 /\ Z.gcd (a + c) (b + d) = 1.
Proof.
  intros (Ha & Hc & Hb & Hd & Hdet). repeat split; apply Zgcd_1_rel_prime, bezout_rel_prime.
  - apply (Bezout_intro _ _ _ (-d) c). lia.
  - apply (Bezout_intro _ _ _ b (-a)). lia.
  - apply (Bezout_intro _ _ _ b (-a)). lia.
Qed.

Lemma farey_loop_valid : forall fuel a b c d p q, fbracket a b c d ->
  (b <= n \/ d <= n) -> farey_loop fuel x n a b c d = Some (p, q) ->
  0 <= p <= q /\ 1 <= q <= n /\ Z.gcd p q = 1.
Proof.
  assert (G : forall a b c d p q, fbracket a b c d ->
    ((p, q) = (a, b) \/ (p, q) = (c, d) \/ (p, q) = (a + c, b + d)) -> 1 <= q <= n ->
    0 <= p <= q /\ 1 <= q <= n /\ Z.gcd p q = 1).
  { intros a b c d p q HB H Hq. pose proof (fbracket_gcd _ _ _ _ HB) as (G1 & G2 & G3). unfold fbracket in HB.
    destruct H as [H|[H|H]]; injection H as -> ->; (split; [lia|split; [lia|assumption]]). }
  induction fuel as [|fuel IH]; intros a b c d p q HB Hn E; cbn [farey_loop] in E;
    destruct (Z.leb_spec b n), (Z.leb_spec d n); cbn [andb] in E.
  all: try discriminate.
  all: try (destruct (b >? n) eqn:Eb; injection E as <- <-; apply (G a b c d); auto; unfold fbracket in HB; lia).
  destruct (neqb x (mediant a b c d)).
  - destruct (Z.leb_spec (b + d) n).
    + injection E as <- <-. apply (G a b c d); auto. unfold fbracket in HB. lia.
    + destruct (d >? b); injection E as <- <-; apply (G a b c d); auto; unfold fbracket in HB; lia.
  - destruct (ngtb x (mediant a b c d)).
    + apply IH in E; [exact E|apply fbracket_left, HB|right; assumption].
    + apply IH in E; [exact E|apply fbracket_right, HB|left; assumption].
Qed.

Lemma farey_valid fuel p q : 1 <= n -> farey fuel x n = Some (p, q) ->
  0 <= p <= q /\ 1 <= q <= n /\ Z.gcd p q = 1.
Proof. intros Hn E. apply (farey_loop_valid _ _ _ _ _ _ _ fbracket_init) in E; [exact E|left; lia]. Qed.

Lemma farey_checked_loop_eq : n < 2 ^ 62 -> forall fuel a b c d, fbracket a b c d ->
  farey_checked_loop fuel x n a b c d = option_map Some (farey_loop fuel x n a b c d).
Proof.
  intros Hn. induction fuel as [|fuel IH]; intros a b c d HB; cbn [farey_loop farey_checked_loop];
    destruct (Z.leb_spec b n), (Z.leb_spec d n); cbn [andb]; try (destruct (b >? n); reflexivity); try reflexivity.
  assert (F : fits_long (a + c) = true /\ fits_long (b + d) = true).
  { unfold fits_long, fbracket in *. split; apply andb_true_intro; split; (apply Z.leb_le || apply Z.ltb_lt); lia. }
  destruct F as [-> ->]. cbn [andb].
  destruct (neqb x (mediant a b c d)); [destruct (b + d <=? n); [reflexivity|destruct (d >? b); reflexivity]|].
  destruct (ngtb x (mediant a b c d)); apply IH; [apply fbracket_left|apply fbracket_right]; exact HB.
Qed.
Lemma farey_checked_eq fuel : n < 2 ^ 62 -> farey_checked fuel x n = option_map Some (farey fuel x n).
Proof. intros Hn. apply farey_checked_loop_eq; [exact Hn|apply fbracket_init]. Qed.
End AnyNumber.

(** ** Exact arithmetic *)
Local Open Scope R_scope.
Definition frac (p q : Z) : R := IZR p / IZR q.

Lemma mediant_R a b c d : @mediant R _ a b c d = frac (a + c) (b + d).
Proof. reflexivity. Qed.

Lemma frac_lt x p q : (1 <= q)%Z -> (x < frac p q <-> x * IZR q < IZR p).
Proof.
  intros Hq. assert (0 < IZR q) by (apply IZR_lt; lia). unfold frac. split; intros H0.
  - apply (Rmult_lt_compat_r (IZR q)) in H0; [|assumption]. unfold Rdiv in H0.
    rewrite Rmult_assoc, Rinv_l in H0 by lra. lra.
  - apply (Rmult_lt_reg_r (IZR q)); [assumption|]. unfold Rdiv. rewrite Rmult_assoc, Rinv_l by lra. lra.
Qed.
Lemma frac_gt x p q : (1 <= q)%Z -> (frac p q < x <-> IZR p < x * IZR q).
Proof.
  intros Hq. assert (0 < IZR q) by (apply IZR_lt; lia). unfold frac. split; intros H0.
  - apply (Rmult_lt_compat_r (IZR q)) in H0; [|assumption]. unfold Rdiv in H0.
    rewrite Rmult_assoc, Rinv_l in H0 by lra. lra.
  - apply (Rmult_lt_reg_r (IZR q)); [assumption|]. unfold Rdiv. rewrite Rmult_assoc, Rinv_l by lra. lra.
Qed.
Lemma frac_eq x p q : (1 <= q)%Z -> (x = frac p q <-> x * IZR q = IZR p).
Proof.
  intros Hq. assert (0 < IZR q) by (apply IZR_lt; lia). unfold frac. split; intros H0.
  - subst. field. lra.
  - rewrite <- H0. field. lra.
Qed.


Lemma frac_ltb p q p' q' : (1 <= q)%Z -> (1 <= q')%Z -> (frac p q < frac p' q' <-> (p * q' < p' * q)%Z).
Proof.
  intros H H'. rewrite frac_lt by assumption. unfold frac.
  assert (0 < IZR q) by (apply IZR_lt; lia). split; intros E.
  - apply (Rmult_lt_compat_r (IZR q)) in E; [|assumption].
    replace (IZR p / IZR q * IZR q' * IZR q) with (IZR p * IZR q') in E by (field; lra).
    rewrite <- !mult_IZR in E. apply lt_IZR in E. exact E.
  - apply (Rmult_lt_reg_r (IZR q)); [assumption|].
    replace (IZR p / IZR q * IZR q' * IZR q) with (IZR p * IZR q') by (field; lra).
    rewrite <- !mult_IZR. apply IZR_lt. exact E.
Qed.

(** Any fraction strictly inside the bracket has a denominator of at least b+d *)
Lemma between_large a b c d p q : fbracket a b c d -> (1 <= q)%Z ->
  frac a b < frac p q -> frac p q < frac c d -> (b + d <= q)%Z.
Proof.
  intros (Ha & Hc & Hb & Hd & Hdet) Hq H1 H2.
  apply frac_ltb in H1; [|lia|lia]. apply frac_ltb in H2; [|lia|lia]. nia.
Qed.

(** a/b <= x <= c/d *)
Definition xin (x : R) (a b c d : Z) : Prop := frac a b <= x <= frac c d.

Lemma frac_dist a b c d : fbracket a b c d -> frac c d - frac a b = / (IZR b * IZR d).
Proof.
  intros (Ha & Hc & Hb & Hd & Hdet). unfold frac.
  assert (0 < IZR b) by (apply IZR_lt; lia). assert (0 < IZR d) by (apply IZR_lt; lia).
  replace (IZR c / IZR d - IZR a / IZR b) with ((IZR b * IZR c - IZR a * IZR d) / (IZR b * IZR d)) by (field; lra).
  rewrite <- !mult_IZR, <- minus_IZR, Hdet, mult_IZR. unfold Rdiv. lra.
Qed.

Definition near (x : R) (n p q : Z) : Prop := Rabs (x - frac p q) <= / (IZR q * (IZR n + 1)).
Definition adjacent (x : R) (n p q : Z) : Prop :=
  forall p' q' : Z, (1 <= q' <= n)%Z ->
     ~ (x < frac p' q' < frac p q) /\ ~ (frac p q < frac p' q' < x).

Lemma adj_low x n a b c d : fbracket a b c d -> xin x a b c d -> (n < b + d)%Z -> adjacent x n a b.
Proof.
  intros HB Hx Hn p' q' Hq'. unfold xin in Hx. split; intros [H1 H2]; [lra|].
  assert (b + d <= q')%Z by (apply (between_large a b c d p' q' HB); [lia|lra|lra]). lia.
Qed.
Lemma adj_high x n a b c d : fbracket a b c d -> xin x a b c d -> (n < b + d)%Z -> adjacent x n c d.
Proof.
  intros HB Hx Hn p' q' Hq'. unfold xin in Hx. split; intros [H1 H2]; [|lra].
  assert (b + d <= q')%Z by (apply (between_large a b c d p' q' HB); [lia|lra|lra]). lia.
Qed.

Lemma inv_mono n q m : (1 <= q)%Z -> (0 <= n)%Z -> (n < m)%Z ->
  / (IZR q * IZR m) <= / (IZR q * (IZR n + 1)).
Proof.
  intros Hq Hn Hm. assert (0 < IZR q) by (apply IZR_lt; lia).
  assert (0 <= IZR n) by (apply IZR_le; lia).
  assert (IZR n + 1 <= IZR m) by (rewrite <- (plus_IZR n 1); apply IZR_le; lia).
  apply Rinv_le_contravar; nra.
Qed.

Lemma near_low x n a b c d : (0 <= n)%Z -> fbracket a b c d -> xin x a b c d -> (n < d)%Z -> near x n a b.
Proof.
  intros Hn HB Hx Hd. pose proof (frac_dist _ _ _ _ HB) as E. unfold xin, near in *.
  rewrite Rabs_right by lra. pose proof (inv_mono n b d ltac:(unfold fbracket in HB; lia) Hn Hd). lra.
Qed.
Lemma near_high x n a b c d : (0 <= n)%Z -> fbracket a b c d -> xin x a b c d -> (n < b)%Z -> near x n c d.
Proof.
  intros Hn HB Hx Hb. pose proof (frac_dist _ _ _ _ HB) as E. unfold xin, near in *.
  rewrite Rabs_left1 by lra. pose proof (inv_mono n d b ltac:(unfold fbracket in HB; lia) Hn Hb).
  rewrite (Rmult_comm (IZR b)) in E. lra.
Qed.

Lemma farey_loop_step fuel x n a b c d : (b <= n)%Z -> (d <= n)%Z ->
  farey_loop (S fuel) x n a b c d =
  if Req_EM_T x (frac (a + c) (b + d)) then
     if (b + d <=? n)%Z then Some (a + c, b + d)%Z else if (d >? b)%Z then Some (c, d) else Some (a, b)
  else if Rlt_dec (frac (a + c) (b + d)) x then farey_loop fuel x n (a + c) (b + d) c d
  else farey_loop fuel x n a b (a + c) (b + d).
Proof.
  intros Hb Hd. cbn [farey_loop]. apply Z.leb_le in Hb, Hd. rewrite Hb, Hd. cbn [andb].
  rewrite mediant_R. cbn [neqb Num_R]. unfold ngtb. cbn [nltb Num_R].
  destruct (Req_EM_T x (frac (a + c) (b + d))) as [E|E].
  - replace (reqb x _) with true by (symmetry; apply reqb_true; exact E). reflexivity.
  - replace (reqb x _) with false by (symmetry; apply reqb_false; exact E).
    destruct (Rlt_dec (frac (a + c) (b + d)) x) as [L|L].
    + replace (rltb _ x) with true by (symmetry; apply rltb_true; exact L). reflexivity.
    + replace (rltb _ x) with false by (symmetry; apply rltb_false; lra). reflexivity.
Qed.

Lemma farey_loop_exit fuel x n a b c d : ~ ((b <= n)%Z /\ (d <= n)%Z) ->
  @farey_loop R _ fuel x n a b c d = Some (if (b >? n)%Z then (c, d) else (a, b)).
Proof.
  intros H. destruct fuel; cbn [farey_loop]; destruct (Z.leb_spec b n), (Z.leb_spec d n); cbn [andb];
    try (exfalso; lia); destruct (b >? n)%Z; reflexivity.
Qed.

Lemma mediant_inside a b c d : fbracket a b c d ->
  frac a b < frac (a + c) (b + d) < frac c d.
Proof. intros (Ha & Hc & Hb & Hd & Hdet). split; apply frac_ltb; nia. Qed.

Lemma farey_loop_best x n : (1 <= n)%Z -> forall fuel a b c d p q, fbracket a b c d -> xin x a b c d ->
  (b <= n \/ d <= n)%Z -> (n < b + d \/ (b <= n /\ d <= n))%Z ->
  farey_loop fuel x n a b c d = Some (p, q) -> near x n p q /\ adjacent x n p q.
Proof.
  intros Hn. induction fuel as [|fuel IH]; intros a b c d p q HB Hx Hor Hbd E.
  - destruct (Z_le_gt_dec b n), (Z_le_gt_dec d n).
    { cbn [farey_loop] in E. apply Z.leb_le in l, l0. rewrite l, l0 in E. discriminate. }
    all: rewrite farey_loop_exit in E by lia; destruct (Z.gtb_spec b n); try lia; injection E as <- <-.
    + split; [apply (near_low x n a b c d)|apply (adj_low x n a b c d)]; auto; unfold fbracket in HB; lia.
    + split; [apply (near_high x n a b c d)|apply (adj_high x n a b c d)]; auto; unfold fbracket in HB; lia.
  - destruct (Z_le_gt_dec b n), (Z_le_gt_dec d n).
    2-4: rewrite farey_loop_exit in E by lia; destruct (Z.gtb_spec b n); try lia; injection E as <- <-.
    2: split; [apply (near_low x n a b c d)|apply (adj_low x n a b c d)]; auto; unfold fbracket in HB; lia.
    2: split; [apply (near_high x n a b c d)|apply (adj_high x n a b c d)]; auto; unfold fbracket in HB; lia.
    rewrite farey_loop_step in E by assumption. pose proof (mediant_inside _ _ _ _ HB) as Hm. unfold xin in *.
    destruct (Req_EM_T x (frac (a + c) (b + d))) as [Eq|Ne].
    + destruct (Z.leb_spec (b + d) n).
      * injection E as <- <-. subst x. split.
        -- unfold near. rewrite Rminus_diag_eq by reflexivity. rewrite Rabs_R0. left.
           apply Rinv_0_lt_compat. unfold fbracket in HB.
           apply Rmult_lt_0_compat; [apply IZR_lt; lia|]. rewrite <- (plus_IZR n 1). apply IZR_lt. lia.
        -- intros p' q' _. split; lra.
      * destruct (d >? b)%Z; injection E as <- <-; subst x.
        -- split.
           ++ apply (near_high _ n (a + c) (b + d) c d); [lia|apply fbracket_left, HB|unfold xin; lra|lia].
           ++ apply (adj_high _ n a b c d); auto; unfold xin; lra.
        -- split.
           ++ apply (near_low _ n a b (a + c) (b + d)); [lia|apply fbracket_right, HB|unfold xin; lra|lia].
           ++ apply (adj_low _ n a b c d); auto; unfold xin; lra.
    + destruct (Rlt_dec (frac (a + c) (b + d)) x) as [L|L].
      * apply IH in E; auto using fbracket_left; try lra. unfold fbracket in HB. lia.
      * apply IH in E; auto using fbracket_right; try lra. unfold fbracket in HB. lia.
Qed.

Lemma farey_best fuel x n p q : (1 <= n)%Z -> 0 <= x <= 1 -> farey fuel x n = Some (p, q) ->
  near x n p q /\ adjacent x n p q.
Proof.
  intros Hn Hx E. apply (farey_loop_best x n Hn fuel 0 1 1 1 p q fbracket_init); auto; try lia.
  unfold xin, frac. lra.
Qed.

(** A fraction p/q in lowest terms with 1 <= q <= n is found exactly. *)
Lemma farey_exact fuel p q n p' q' : (0 <= p <= q)%Z -> (1 <= q <= n)%Z -> Z.gcd p q = 1%Z ->
  farey fuel (frac p q) n = Some (p', q') -> p' = p /\ q' = q.
Proof.
  intros Hp Hq Hg E.
  assert (Hx : 0 <= frac p q <= 1).
  { assert (0 < IZR q) by (apply IZR_lt; lia). split.
    - assert (~ frac p q < 0); [|lra]. intros HH. replace 0 with (frac 0 1) in HH by (unfold frac; lra).
      apply frac_ltb in HH; lia.
    - assert (~ 1 < frac p q); [|lra]. intros HH. replace 1 with (frac 1 1) in HH by (unfold frac; lra).
      apply frac_ltb in HH; lia. }
  pose proof (farey_valid _ n _ _ _ ltac:(lia) E) as (V1 & V2 & V3).
  apply farey_best in E; [|lia|exact Hx]. destruct E as [E _]. unfold near in E.
  (* two different fractions with denominators q, q' differ by at least 1/(qq') *)
  assert (Heq : (p * q' = p' * q)%Z).
  { destruct (Z.eq_dec (p * q') (p' * q)) as [?|Hne]; [assumption|exfalso].
    assert (Hq0 : 0 < IZR q) by (apply IZR_lt; lia). assert (Hq0' : 0 < IZR q') by (apply IZR_lt; lia).
    assert (D : frac p q - frac p' q' = IZR (p * q' - p' * q) * / (IZR q * IZR q')).
    { unfold frac. rewrite minus_IZR, !mult_IZR. field. lra. }
    assert (P0 : 0 < / (IZR q * IZR q')) by (apply Rinv_0_lt_compat; nra).
    rewrite D, Rabs_mult, (Rabs_right (/ _)) in E by lra.
    assert (1 <= Rabs (IZR (p * q' - p' * q))) by (rewrite <- abs_IZR; apply (IZR_le 1); lia).
    assert (I : / (IZR q' * (IZR n + 1)) < / (IZR q * IZR q')).
    { assert (IZR q < IZR n + 1) by (rewrite <- (plus_IZR n 1); apply IZR_lt; lia).
      apply Rinv_lt_contravar; [|rewrite Rmult_comm; apply Rmult_lt_compat_l; assumption].
      repeat apply Rmult_lt_0_compat; lra. }
    nra. }
  assert (Dq : (q | q')%Z).
  { apply Z.gauss with p; [|rewrite Z.gcd_comm; exact Hg]. exists p'. lia. }
  assert (Dq' : (q' | q)%Z).
  { apply Z.gauss with p'; [|rewrite Z.gcd_comm; exact V3]. exists p. lia. }
  assert (q = q') by (apply Z.divide_antisym_nonneg; lia || assumption).
  subst q'. split; [|reflexivity]. nia.
Qed.


(** ** rational *)
Lemma rational_small fuel x n : Rabs x <= 1 ->
  @rational R _ fuel x n = match farey fuel (Rabs x) n with
    | Some (a, b) => Some ((if Rle_dec 0 x then 1 else -1) * a, b)%Z | None => None end.
Proof.
  intros Hx. unfold rational, ngtb, ngeb, none1, nzero. cbn [nltb nleb nabs nofZ Num_R].
  replace (rltb 1 (Rabs x)) with false by (symmetry; apply rltb_false; lra).
  destruct (Rle_dec 0 x) as [H|H].
  - replace (rleb 0 x) with true by (symmetry; apply rleb_true; lra). reflexivity.
  - replace (rleb 0 x) with false by (symmetry; apply rleb_false; lra). reflexivity.
Qed.
Lemma rational_large fuel x n : 1 < Rabs x ->
  @rational R _ fuel x n = match farey fuel (1 / Rabs x) n with
    | Some (a, b) => Some ((if Rle_dec 0 x then 1 else -1) * b, a)%Z | None => None end.
Proof.
  intros Hx. unfold rational, ngtb, ngeb, none1, nzero. cbn [nltb nleb nabs nofZ ndiv Num_R].
  replace (rltb 1 (Rabs x)) with true by (symmetry; apply rltb_true; lra).
  destruct (Rle_dec 0 x) as [H|H].
  - replace (rleb 0 x) with true by (symmetry; apply rleb_true; lra). reflexivity.
  - replace (rleb 0 x) with false by (symmetry; apply rleb_false; lra). reflexivity.
Qed.

Lemma sign_abs p q : (1 <= q)%Z -> ((if Rle_dec 0 (frac p q) then 1 else -1) * Z.abs p = p)%Z.
Proof.
  intros Hq. destruct (Rle_dec 0 (frac p q)) as [H|H].
  - assert (0 <= p)%Z; [|lia]. assert (~ (p < 0)%Z); [|lia]. intros L.
    assert (frac p q < frac 0 1) by (apply frac_ltb; lia). unfold frac in *. lra.
  - assert (p < 0)%Z; [|lia]. assert (~ (0 <= p)%Z); [|lia]. intros L. apply H.
    unfold frac. apply Rmult_le_pos; [apply IZR_le; lia|]. left. apply Rinv_0_lt_compat, IZR_lt. lia.
Qed.
Lemma frac_abs p q : (1 <= q)%Z -> Rabs (frac p q) = frac (Z.abs p) q.
Proof.
  intros Hq. unfold frac, Rdiv. rewrite Rabs_mult, abs_IZR. f_equal. apply Rabs_right.
  left. apply Rinv_0_lt_compat, IZR_lt. lia.
Qed.

Lemma rational_exact fuel p q n : (1 <= q <= n)%Z -> (Z.abs p <= n)%Z -> Z.gcd p q = 1%Z ->
  (2 * n <= Z.of_nat fuel)%Z -> rational fuel (frac p q) n = Some (p, q).
Proof.
  intros Hq Hp Hg Hf.
  assert (Hg' : Z.gcd (Z.abs p) q = 1%Z) by (rewrite Z.gcd_abs_l; exact Hg).
  destruct (Z_le_gt_dec (Z.abs p) q) as [L|L].
  - rewrite rational_small, frac_abs by (lia || (rewrite frac_abs by lia; assert (~ 1 < frac (Z.abs p) q); [|lra];
      intros HH; replace 1 with (frac 1 1) in HH by (unfold frac; lra); apply frac_ltb in HH; lia)).
    destruct (farey fuel (frac (Z.abs p) q) n) as [[a b]|] eqn:E.
    + apply farey_exact in E; try lia. destruct E as [-> ->]. rewrite sign_abs by lia. reflexivity.
    + exfalso. revert E. apply farey_ends; lia.
  - rewrite rational_large, frac_abs by (lia || (rewrite frac_abs by lia;
      replace 1 with (frac 1 1) by (unfold frac; lra); apply frac_ltb; lia)).
    replace (1 / frac (Z.abs p) q) with (frac q (Z.abs p)).
    2: { unfold frac. field. split; apply not_0_IZR; lia. }
    destruct (farey fuel (frac q (Z.abs p)) n) as [[a b]|] eqn:E.
    + apply farey_exact in E; try lia. 2: rewrite Z.gcd_comm; exact Hg'.
      destruct E as [-> ->]. rewrite sign_abs by lia. reflexivity.
    + exfalso. revert E. apply farey_ends; lia.
Qed.

(** numerator zero is returned below 1/(n+1) and not above it *)
Lemma farey_zero fuel y n p q : (1 <= n)%Z -> 0 <= y <= 1 -> farey fuel y n = Some (p, q) ->
  (y < / (IZR n + 1) -> p = 0%Z /\ q = 1%Z) /\ (/ (IZR n + 1) < y -> (1 <= p)%Z).
Proof.
  intros Hn Hy E. pose proof (farey_valid _ n _ _ _ Hn E) as (V1 & V2 & V3).
  apply farey_best in E; [|exact Hn|exact Hy]. destruct E as [E _]. unfold near in E.
  assert (Hq0 : 0 < IZR q) by (apply IZR_lt; lia). assert (Hn0 : 0 < IZR n) by (apply IZR_lt; lia).
  split; intros Hy'.
  - destruct (Z.eq_dec p 0) as [->|Hp]; [rewrite Z.gcd_0_l in V3; lia|exfalso].
    assert (frac p q - y <= / (IZR q * (IZR n + 1))) by (unfold Rabs in E; destruct (Rcase_abs _); lra).
    assert (IZR p * (IZR n + 1) < IZR q + 1).
    { assert (L : frac p q < / (IZR n + 1) + / (IZR q * (IZR n + 1))) by lra.
      apply (Rmult_lt_compat_r (IZR q * (IZR n + 1))) in L; [|apply Rmult_lt_0_compat; lra].
      unfold frac in L. replace (IZR p / IZR q * (IZR q * (IZR n + 1))) with (IZR p * (IZR n + 1)) in L by (field; lra).
      replace ((/ (IZR n + 1) + / (IZR q * (IZR n + 1))) * (IZR q * (IZR n + 1))) with (IZR q + 1) in L by (field; lra).
      exact L. }
    rewrite <- (plus_IZR n 1), <- (plus_IZR q 1), <- mult_IZR in H0. apply lt_IZR in H0. nia.
  - destruct (Z.eq_dec p 0) as [->|Hp]; [exfalso|lia].
    rewrite Z.gcd_0_l in V3. assert (q = 1)%Z by lia. subst q. unfold frac in E.
    replace (y - 0 / 1) with y in E by lra. rewrite Rmult_1_l in E. rewrite Rabs_right in E; lra.
Qed.

Lemma inv_range x : 1 < Rabs x -> 0 <= 1 / Rabs x <= 1.
Proof.
  intros H. unfold Rdiv. rewrite Rmult_1_l. split; [left; apply Rinv_0_lt_compat; lra|].
  rewrite <- Rinv_1. apply Rinv_le_contravar; lra.
Qed.

Lemma rational_denominator fuel x n a b : (1 <= n)%Z -> rational fuel x n = Some (a, b) ->
  Rabs x < IZR n + 1 -> (1 <= b <= n)%Z /\ Z.gcd a b = 1%Z.
Proof.
  intros Hn E Hx. assert (S : forall (s u v : Z), (s = 1 \/ s = -1)%Z -> Z.gcd u v = 1%Z -> Z.gcd (s * u) v = 1%Z).
  { intros s u v [-> | ->] G; [rewrite Z.mul_1_l; exact G|].
    replace (-1 * u)%Z with (- u)%Z by lia. rewrite Z.gcd_opp_l. exact G. }
  destruct (Rle_dec (Rabs x) 1) as [L|L].
  - rewrite rational_small in E by exact L. destruct (farey fuel (Rabs x) n) as [[p q]|] eqn:F; [|discriminate].
    injection E as <- <-. apply farey_valid in F; [|exact Hn]. destruct F as (F1 & F2 & F3).
    split; [lia|]. apply S; [|exact F3]. destruct (Rle_dec 0 x); [left|right]; reflexivity.
  - apply Rnot_le_lt in L. rewrite rational_large in E by exact L.
    destruct (farey fuel (1 / Rabs x) n) as [[p q]|] eqn:F; [|discriminate]. injection E as <- <-.
    pose proof (farey_valid _ n _ _ _ Hn F) as (F1 & F2 & F3).
    apply farey_zero in F; [|exact Hn|apply inv_range, L]. destruct F as [_ F].
    assert (1 <= p)%Z.
    { apply F. unfold Rdiv. rewrite Rmult_1_l. apply Rinv_lt_contravar; [|exact Hx].
      apply Rmult_lt_0_compat; lra. }
    split; [lia|]. apply S; [destruct (Rle_dec 0 x); [left|right]; reflexivity|]. rewrite Z.gcd_comm. exact F3.
Qed.

Lemma rational_zero_denominator fuel x n : (1 <= n)%Z -> (2 * n <= Z.of_nat fuel)%Z -> IZR n + 1 < Rabs x ->
  exists s, (s = 1 \/ s = -1)%Z /\ rational fuel x n = Some (s, 0%Z).
Proof.
  intros Hn Hf Hx. assert (Hn0 : 1 <= IZR n) by (apply (IZR_le 1); lia).
  rewrite rational_large by lra. destruct (farey fuel (1 / Rabs x) n) as [[p q]|] eqn:F.
  - apply farey_zero in F; [|exact Hn|apply inv_range; lra]. destruct F as [F _].
    destruct F as [-> ->].
    { unfold Rdiv. rewrite Rmult_1_l. apply Rinv_lt_contravar; [|exact Hx]. apply Rmult_lt_0_compat; lra. }
    eexists. split; [|rewrite Z.mul_1_r; reflexivity]. destruct (Rle_dec 0 x); [left|right]; reflexivity.
  - exfalso. revert F. apply farey_ends; lia.
Qed.

(** Whatever the numbers (NaN included), as long as x does not compare above one *)
Lemma rational_denominator_any {T} {N : Num T} fuel (x : T) n a b : (1 <= n)%Z ->
  ngtb (nabs x) none1 = false -> rational fuel x n = Some (a, b) -> (1 <= b <= n)%Z /\ (Z.abs a <= b)%Z.
Proof.
  intros Hn Hx E. unfold rational in E. rewrite Hx in E.
  destruct (farey fuel (nabs x) n) as [[p q]|] eqn:F; [|discriminate]. injection E as <- <-.
  apply farey_valid in F; [|exact Hn]. destruct (ngeb x nzero); lia.
Qed.

Lemma frac_opp p q : frac (-1 * p) q = - frac p q.
Proof. unfold frac. rewrite mult_IZR. unfold Rdiv. lra. Qed.

Lemma rational_near fuel x n a b : (1 <= n)%Z -> Rabs x <= 1 -> rational fuel x n = Some (a, b) ->
  near x n a b /\ adjacent x n a b.
Proof.
  intros Hn Hx E. rewrite rational_small in E by exact Hx.
  destruct (farey fuel (Rabs x) n) as [[p q]|] eqn:F; [|discriminate]. injection E as <- <-.
  apply farey_best in F; [|exact Hn|split; [apply Rabs_pos|exact Hx]]. destruct F as [F1 F2].
  destruct (Rle_dec 0 x) as [H|H].
  - rewrite Rabs_right in F1, F2 by lra. rewrite Z.mul_1_l. split; assumption.
  - rewrite Rabs_left in F1, F2 by lra. split.
    + unfold near in *. rewrite frac_opp. rewrite <- Rabs_Ropp. replace (- (x - - frac p q)) with (- x - frac p q) by lra.
      exact F1.
    + intros p' q' Hq'. rewrite frac_opp. destruct (F2 (-1 * p')%Z q' Hq') as [G1 G2].
      rewrite frac_opp in G1, G2. split; intros [K1 K2]; [apply G2|apply G1]; lra.
Qed.

Lemma rational_near_large fuel x n a b : (1 <= n)%Z -> 1 < Rabs x < IZR n + 1 -> rational fuel x n = Some (a, b) ->
  Rabs (x - frac a b) <= Rabs x / (IZR b * (IZR n + 1)).
Proof.
  intros Hn [Hx Hx'] E. pose proof (rational_denominator _ _ _ _ _ Hn E Hx') as [Hb _].
  rewrite rational_large in E by exact Hx.
  destruct (farey fuel (1 / Rabs x) n) as [[p q]|] eqn:F; [|discriminate]. injection E as E1 E2. subst b.
  pose proof (farey_valid _ n _ _ _ Hn F) as (V1 & V2 & V3).
  apply farey_best in F; [|exact Hn|apply inv_range, Hx]. destruct F as [F _]. unfold near in F.
  assert (Hp0 : 0 < IZR p) by (apply IZR_lt; lia). assert (Hq0 : 0 < IZR q) by (apply IZR_lt; lia).
  assert (Hn0 : 0 < IZR n) by (apply IZR_lt; lia).
  assert (D : Rabs (x - frac a p) = Rabs (Rabs x - frac q p)).
  { subst a. destruct (Rle_dec 0 x).
    - rewrite (Rabs_right x) by lra. rewrite Z.mul_1_l. reflexivity.
    - rewrite (Rabs_left x) by lra. rewrite frac_opp, <- (Rabs_Ropp (x - _)). f_equal. lra. }
  rewrite D. replace (Rabs x - frac q p) with (- (1 / Rabs x - frac p q) * (Rabs x * (IZR q / IZR p))).
  2: { unfold frac. field. lra. }
  rewrite Rabs_mult, Rabs_Ropp.
  assert (P : 0 < Rabs x * (IZR q / IZR p)).
  { apply Rmult_lt_0_compat; [lra|]. apply Rmult_lt_0_compat; [lra|]. apply Rinv_0_lt_compat. lra. }
  rewrite (Rabs_right (Rabs x * _)) by lra.
  apply Rle_trans with (/ (IZR q * (IZR n + 1)) * (Rabs x * (IZR q / IZR p))).
  - apply Rmult_le_compat_r; [lra|exact F].
  - right. field. lra.
Qed.

(** rationalize works entry by entry *)
Lemma rationalize_entries {T} {N : Num T} fuel maxden : forall (data r : list T),
  rationalize fuel data maxden = Some r ->
  Forall2 (fun x y => exists a b, rational fuel x maxden = Some (a, b) /\ y = ndiv (nofZ a) (nofZ b)) data r.
Proof.
  induction data as [|x data IH]; intros r E; cbn [rationalize] in E.
  - injection E as <-. constructor.
  - destruct (rationalize_entry fuel x maxden) as [y|] eqn:Ex; [|discriminate].
    destruct (rationalize fuel data maxden) as [r'|]; [|discriminate]. injection E as <-.
    constructor; [|apply IH; reflexivity]. unfold rationalize_entry in Ex.
    destruct (rational fuel x maxden) as [[a b]|]; [|discriminate]. injection Ex as <-. exists a, b. auto.
Qed.
