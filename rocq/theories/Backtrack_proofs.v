(** Lemmas for C51 and C52. *)
From Coq Require Import List Arith Bool ZArith Reals Lra Lia.
From Verif Require Import Num Num_facts Minimize_model Minimize_proofs Loop_model Loop_spec Loop_proofs.
Import ListNotations.
Local Open Scope R_scope.

Lemma inside_iff lo hi a : inside lo hi a <->
  match lo with XF l => l <= a | XNInf => True | _ => False end /\ match hi with XF h => a <= h | XPInf => True | _ => False end.
Proof.
  unfold inside. destruct lo as [l| | |], hi as [h| | |]; simpl; unfold rleb;
    try (destruct (Rle_dec l a)); try (destruct (Rle_dec a h)); intuition (try discriminate; try lra).
Qed.

Lemma lin_alt b o v : lin b o v = o + b * (v - o).
Proof. unfold lin. ring. Qed.

(** between two points inside *)
Lemma inside_between lo hi a c b b' : 0 <= b' <= b -> inside lo hi a -> inside lo hi (lin b a c) -> inside lo hi (lin b' a c).
Proof.
  rewrite !inside_iff, !lin_alt. intros Hb (A1 & A2) (B1 & B2).
  destruct (Rle_dec a c) as [L|L].
  - assert (0 <= b' * (c - a)) by nra. assert (b' * (c - a) <= b * (c - a)) by nra.
    split; [destruct lo|destruct hi]; try assumption; try tauto; lra.
  - assert (b' * (c - a) <= 0) by nra. assert (b * (c - a) <= b' * (c - a)) by nra.
    split; [destruct lo|destruct hi]; try assumption; try tauto; lra.
Qed.

Definition quad := ((R * R) * (xreal * xreal))%type.
Definition up4 (c : quad) : (xreal * xreal) * (xreal * xreal) := ((XF (fst (fst c)), XF (snd (fst c))), snd c).
Definition q_o (c : quad) := fst (fst c).
Definition q_v (c : quad) := snd (fst c).
Definition q_blocked (c : quad) := blocked (fst (snd c)) (snd (snd c)) (q_o c) (q_v c).
Definition q_inside (b : R) (c : quad) := inside (fst (snd c)) (snd (snd c)) (lin b (q_o c) (q_v c)).

Definition Inv (b : R) (L : list quad) : Prop :=
  0 < b <= 1 /\ Forall (fun c => ~ q_blocked c -> q_inside b c) L /\
  (b = 1 \/ exists c, In c L /\ ~ q_blocked c /\ forall b', b < b' -> ~ q_inside b' c).

Lemma Inv_smaller b b' L : Forall (q_inside 0) L -> 0 < b' <= b -> Forall (fun c => ~ q_blocked c -> q_inside b c) L ->
  Forall (fun c => ~ q_blocked c -> q_inside b' c) L.
Proof.
  intros H0 Hb. rewrite !Forall_forall in *. intros H c Hc nb. unfold q_inside in *.
  apply inside_between with b; [lra| |apply H; assumption].
  specialize (H0 c Hc). rewrite lin_alt in H0. replace (q_o c + 0 * (q_v c - q_o c)) with (q_o c) in H0 by ring. exact H0.
Qed.

Lemma nmin_XF a b : nmin (XF a) (XF b) = XF (Rmin a b).
Proof.
  unfold nmin. simpl. unfold rltb. destruct (Rlt_dec b a).
  - rewrite Rmin_right by lra. reflexivity.
  - rewrite Rmin_left by lra. reflexivity.
Qed.

Lemma inside0 lo hi o v : inside lo hi (lin 0 o v) <-> inside lo hi o.
Proof. rewrite lin_alt. replace (o + 0 * (v - o)) with o by ring. tauto. Qed.

Lemma beta_step_inv b L c : Forall (q_inside 0) (L ++ [c]) -> Inv b L ->
  exists b', beta_step (XF b) (up4 c) = XF b' /\ Inv b' (L ++ [c]).
Proof.
  intros H0 (Hb & HL & HM). pose proof H0 as H0'. apply Forall_app in H0'. destruct H0' as [H0L H0c].
  inversion H0c as [|? ? Hc _]; subst. clear H0c.
  destruct c as [[o v] [lo hi]]. unfold q_inside, q_o, q_v in Hc. cbn in Hc. rewrite inside0 in Hc.
  assert (Keep : (~ blocked lo hi o v -> inside lo hi (lin b o v)) -> Inv b (L ++ [((o, v), (lo, hi))])).
  { intros K. split; [exact Hb|]. split.
    - apply Forall_app. split; [exact HL|]. constructor; [exact K|constructor].
    - destruct HM as [M|(c & M1 & M2)]; [left; exact M|right; exists c; split; [apply in_or_app; left; exact M1|exact M2]]. }
  assert (Shrink : forall q, 0 < q < 1 -> inside lo hi (lin q o v) -> ~ blocked lo hi o v ->
            (forall b', q < b' -> ~ inside lo hi (lin b' o v)) -> Inv (Rmin b q) (L ++ [((o, v), (lo, hi))])).
  { intros q Hq I NB M. destruct (Rle_dec b q) as [Q|Q].
    - rewrite Rmin_left by exact Q. apply Keep. intros _. apply inside_between with q; [lra|exact Hc|exact I].
    - rewrite Rmin_right by lra. split; [lra|]. split.
      + apply Forall_app. split; [apply Inv_smaller with b; [exact H0L|lra|exact HL]|].
        constructor; [intros _; exact I|constructor].
      + right. exists ((o, v), (lo, hi)). split; [apply in_or_app; right; left; reflexivity|]. split; [exact NB|exact M]. }
  unfold up4. cbn [fst snd]. unfold beta_step, ngtb.
  pose proof Hc as Hc'. rewrite inside_iff in Hc'. destruct Hc' as [Lo Hi].
  change (neqb (XF v) (XF o)) with (reqb v o). unfold reqb. destruct (Req_EM_T v o) as [->|Ne].
  { exists b. split; [reflexivity|]. apply Keep. intros _. rewrite lin_alt. replace (o + b * (o - o)) with o by ring. exact Hc. }
  destruct (nltb hi (XF v) && nltb (XF o) hi) eqn:E1.
  { apply andb_true_iff in E1. destruct E1 as [V O]. destruct hi as [h| | |]; simpl in V, O; try discriminate.
    unfold rltb in V, O. destruct (Rlt_dec h v) as [V'|]; [|discriminate]. destruct (Rlt_dec o h) as [O'|]; [|discriminate].
    change (nsub (XF h) (XF o)) with (XF (h + - o)). change (nsub (XF v) (XF o)) with (XF (v + - o)).
    assert (D : ndiv (XF (h + - o)) (XF (v + - o)) = XF ((h - o) / (v - o))).
    { simpl. unfold reqb. destruct (Req_EM_T (v + - o) 0); [lra|]. reflexivity. }
    rewrite D, nmin_XF. eexists. split; [reflexivity|].
    assert (Q : (h - o) / (v - o) * (v - o) = h - o) by (field; lra).
    assert (Qp : 0 < (h - o) / (v - o)) by (apply Rdiv_lt_0_compat; lra).
    assert (Q1 : (h - o) / (v - o) < 1) by nra.
    apply Shrink.
    - lra.
    - apply inside_iff. rewrite lin_alt, Q. split; [destruct lo; try tauto; lra|lra].
    - intros [[E _]|[_ E]]; [injection E; lra|lra].
    - intros b' B I. apply inside_iff in I. destruct I as [_ I]. rewrite lin_alt in I. nra. }
  destruct (nltb (XF v) lo && nltb lo (XF o)) eqn:E2.
  { apply andb_true_iff in E2. destruct E2 as [V O]. destruct lo as [l| | |]; simpl in V, O; try discriminate.
    unfold rltb in V, O. destruct (Rlt_dec v l) as [V'|]; [|discriminate]. destruct (Rlt_dec l o) as [O'|]; [|discriminate].
    change (nsub (XF l) (XF o)) with (XF (l + - o)). change (nsub (XF v) (XF o)) with (XF (v + - o)).
    assert (D : ndiv (XF (l + - o)) (XF (v + - o)) = XF ((l - o) / (v - o))).
    { simpl. unfold reqb. destruct (Req_EM_T (v + - o) 0); [lra|]. reflexivity. }
    rewrite D, nmin_XF. eexists. split; [reflexivity|].
    assert (Q : (l - o) / (v - o) * (v - o) = l - o) by (field; lra).
    assert (Qp : 0 < (l - o) / (v - o)).
    { replace ((l - o) / (v - o)) with ((o - l) / (o - v)) by (field; lra). apply Rdiv_lt_0_compat; lra. }
    assert (Q1 : (l - o) / (v - o) < 1) by nra.
    apply Shrink.
    - lra.
    - apply inside_iff. rewrite lin_alt, Q. split; [lra|destruct hi; try tauto; lra].
    - intros [[_ E]|[E _]]; [lra|injection E; lra].
    - intros b' B I. apply inside_iff in I. destruct I as [I _]. rewrite lin_alt in I. nra. }
  exists b. split; [reflexivity|]. apply Keep. intros NB.
  apply inside_between with 1; [lra|exact Hc|]. rewrite inside_iff, lin_alt. replace (o + 1 * (v - o)) with v by ring.
  split.
  - destruct lo as [l| | |]; try tauto. simpl in E2. unfold rltb in E2.
    destruct (Rlt_dec v l) as [V|]; [|lra]. destruct (Rlt_dec l o) as [O|O]; [discriminate|].
    exfalso. apply NB. right. split; [f_equal; lra|lra].
  - destruct hi as [h| | |]; try tauto. simpl in E1. unfold rltb in E1.
    destruct (Rlt_dec h v) as [V|]; [|lra]. destruct (Rlt_dec o h) as [O|O]; [discriminate|].
    exfalso. apply NB. left. split; [f_equal; lra|lra].
Qed.

Lemma beta_fold_inv L2 : forall L1 b, Forall (q_inside 0) (L1 ++ L2) -> Inv b L1 ->
  exists b', fold_left beta_step (map up4 L2) (XF b) = XF b' /\ Inv b' (L1 ++ L2).
Proof.
  induction L2 as [|c L2 IH]; intros L1 b H I.
  - exists b. rewrite app_nil_r. split; [reflexivity|exact I].
  - cbn [map fold_left]. replace (L1 ++ c :: L2) with ((L1 ++ [c]) ++ L2) in * by (rewrite <- app_assoc; reflexivity).
    pose proof H as H'. apply Forall_app in H'. destruct H' as [H1 _].
    destruct (beta_step_inv b L1 c H1 I) as (b1 & E & I1). rewrite E. apply IH; assumption.
Qed.

Lemma combine_up4 (o v : list R) (bb : list (xreal * xreal)) :
  combine (combine (map XF o) (map XF v)) bb = map up4 (combine (combine o v) bb).
Proof.
  revert v bb. induction o as [|a o IH]; intros [|c v] [|d bb]; try reflexivity. cbn. f_equal. apply IH.
Qed.

Lemma vars_nth o v lo hi i : length v = length o -> length lo = length o -> length hi = length o -> (i < length o)%nat ->
  nth i (vars o v lo hi) ((0, 0), (XNaN, XNaN)) = ((nth i o 0, nth i v 0), (nth i lo XNaN, nth i hi XNaN)).
Proof. intros H1 H2 H3 Hi. unfold vars. rewrite combine_nth by (rewrite !combine_length; lia). rewrite !combine_nth by lia. reflexivity. Qed.

Lemma vars_length o v lo hi : length v = length o -> length lo = length o -> length hi = length o -> length (vars o v lo hi) = length o.
Proof. intros. unfold vars. rewrite !combine_length. lia. Qed.

Lemma vars_inside0 o v lo hi : length v = length o -> length lo = length o -> length hi = length o -> all_inside lo hi o ->
  Forall (q_inside 0) (vars o v lo hi).
Proof.
  intros H1 H2 H3 H. apply Forall_forall. intros c Hc. apply In_nth with (d := ((0, 0), (XNaN, XNaN))) in Hc.
  destruct Hc as (i & Hi & <-). rewrite vars_length in Hi by assumption. rewrite vars_nth by assumption.
  unfold q_inside. cbn. apply inside0. apply H. exact Hi.
Qed.

Lemma clip_inside lo hi a : inside lo hi a -> nmin (nmax (XF a) lo) hi = XF a.
Proof.
  rewrite inside_iff. intros [L H].
  assert (E : nmax (XF a) lo = XF a).
  { unfold nmax. destruct lo as [l| | |]; try contradiction; simpl; [|reflexivity]. unfold rltb. destruct (Rlt_dec a l); [lra|reflexivity]. }
  rewrite E. unfold nmin. destruct hi as [h| | |]; try contradiction; simpl; [|reflexivity]. unfold rltb. destruct (Rlt_dec h a); [lra|reflexivity].
Qed.

Lemma clip_blocked lo hi o v b : 0 < b -> inside lo hi o -> blocked lo hi o v -> nmin (nmax (XF (lin b o v)) lo) hi = XF o.
Proof.
  rewrite inside_iff. intros Hb [L H] [[-> B]|[-> B]].
  - assert (o < lin b o v) by (rewrite lin_alt; nra).
    assert (E : nmax (XF (lin b o v)) lo = XF (lin b o v)).
    { unfold nmax. destruct lo as [l| | |]; try contradiction; simpl; [|reflexivity]. unfold rltb. destruct (Rlt_dec (lin b o v) l); [lra|reflexivity]. }
    rewrite E. unfold nmin. simpl. unfold rltb. destruct (Rlt_dec o (lin b o v)); [reflexivity|lra].
  - assert (lin b o v < o) by (rewrite lin_alt; nra).
    assert (E : nmax (XF (lin b o v)) (XF o) = XF o).
    { unfold nmax. simpl. unfold rltb. destruct (Rlt_dec (lin b o v) o); [reflexivity|lra]. }
    rewrite E. unfold nmin. destruct hi as [h| | |]; try contradiction; simpl; [|reflexivity]. unfold rltb. destruct (Rlt_dec h o); [lra|reflexivity].
Qed.

Lemma mix1_XF b o v : mix1 (XF b) (XF o) (XF v) = XF (lin b o v).
Proof. reflexivity. Qed.

Lemma nth_mixl b o v i : length v = length o -> (i < length o)%nat ->
  nth i (map2 (mix1 (XF b)) (map XF o) (map XF v)) XNaN = XF (lin b (nth i o 0) (nth i v 0)).
Proof.
  intros H Hi. rewrite nth_map2 by (rewrite length_map2, !map_length; lia).
  rewrite (nth_indep _ XNaN (XF 0)) by (rewrite map_length; lia). rewrite map_nth.
  rewrite (nth_indep (map XF v) XNaN (XF 0)) by (rewrite map_length; lia). rewrite map_nth. apply mix1_XF.
Qed.

Lemma moved_clamp b o v lo hi : 0 < b -> length v = length o -> length lo = length o -> length hi = length o -> all_inside lo hi o ->
  (forall i, (i < length o)%nat -> ~ blocked (nth i lo XNaN) (nth i hi XNaN) (nth i o 0) (nth i v 0) ->
     inside (nth i lo XNaN) (nth i hi XNaN) (lin b (nth i o 0) (nth i v 0))) ->
  moved b o v lo hi (clampv (map2 (mix1 (XF b)) (map XF o) (map XF v)) lo hi).
Proof.
  intros Hb H1 H2 H3 H0 H.
  assert (LL : length (clampv (map2 (mix1 (XF b)) (map XF o) (map XF v)) lo hi) = length o).
  { rewrite length_clampv; rewrite length_map2, !map_length; lia. }
  split; [exact LL|]. intros i Hi. cbn zeta.
  rewrite nth_clampv by (rewrite LL; exact Hi). rewrite nth_mixl by assumption. split.
  - intros Bl. apply clip_blocked; [exact Hb|apply H0; exact Hi|exact Bl].
  - intros NB. specialize (H i Hi NB). split; [apply clip_inside; exact H|exact H].
Qed.

Theorem backtrack_correct : forall (xo x po p wo w : list R) (B : bounds xreal),
  length x = length xo -> length (xlo B) = length xo -> length (xhi B) = length xo ->
  length p = length po -> length (plo B) = length po -> length (phi_ B) = length po -> length w = length wo ->
  all_inside (xlo B) (xhi B) xo -> all_inside (plo B) (phi_ B) po ->
  exists b, let u' := backtrack false B (fin xo po wo) (fin x p w) in
    0 < b <= 1 /\ moved b xo x (xlo B) (xhi B) (ux u') /\ moved b po p (plo B) (phi_ B) (up u') /\
    length (uw u') = length wo /\ (forall i, (i < length wo)%nat -> nth i (uw u') XNaN = XF (lin b (nth i wo 0) (nth i w 0))) /\
    (b = 1 \/ forall b', b < b' -> overshoots b' xo x (xlo B) (xhi B) \/ overshoots b' po p (plo B) (phi_ B)).
Proof.
  intros xo x po p wo w B X1 X2 X3 P1 P2 P3 W1 XI PI.
  set (QX := vars xo x (xlo B) (xhi B)). set (QP := vars po p (plo B) (phi_ B)).
  assert (FX : Forall (q_inside 0) QX) by (apply vars_inside0; assumption).
  assert (FP : Forall (q_inside 0) QP) by (apply vars_inside0; assumption).
  assert (I0 : Inv 1 []). { split; [lra|]. split; [constructor|left; reflexivity]. }
  destruct (beta_fold_inv QX [] 1 FX I0) as (b1 & E1 & I1). cbn [app] in I1.
  destruct (beta_fold_inv QP QX b1) as (b & E2 & I2); [apply Forall_app; split; assumption|exact I1|].
  assert (EB : betamin B (fin xo po wo) (fin x p w) = XF b).
  { unfold betamin, beta_loop. cbn [ux up fin]. rewrite !combine_up4. change (@none1 xreal _) with (XF 1).
    unfold QX, QP, vars in E1, E2. rewrite E1. exact E2. }
  exists b. cbn zeta. unfold backtrack. rewrite EB. destruct I2 as (Hb & IN & MX).
  rewrite Forall_forall in IN.
  assert (INX : forall i, (i < length xo)%nat -> ~ blocked (nth i (xlo B) XNaN) (nth i (xhi B) XNaN) (nth i xo 0) (nth i x 0) ->
     inside (nth i (xlo B) XNaN) (nth i (xhi B) XNaN) (lin b (nth i xo 0) (nth i x 0))).
  { intros i Hi NB. pose proof (vars_nth xo x (xlo B) (xhi B) i X1 X2 X3 Hi) as V.
    assert (Inn : In (nth i QX ((0, 0), (XNaN, XNaN))) (QX ++ QP)).
    { apply in_or_app. left. apply nth_In. unfold QX. rewrite vars_length by assumption. exact Hi. }
    specialize (IN _ Inn). unfold QX in IN. rewrite V in IN. exact (IN NB). }
  assert (INP : forall i, (i < length po)%nat -> ~ blocked (nth i (plo B) XNaN) (nth i (phi_ B) XNaN) (nth i po 0) (nth i p 0) ->
     inside (nth i (plo B) XNaN) (nth i (phi_ B) XNaN) (lin b (nth i po 0) (nth i p 0))).
  { intros i Hi NB. pose proof (vars_nth po p (plo B) (phi_ B) i P1 P2 P3 Hi) as V.
    assert (Inn : In (nth i QP ((0, 0), (XNaN, XNaN))) (QX ++ QP)).
    { apply in_or_app. right. apply nth_In. unfold QP. rewrite vars_length by assumption. exact Hi. }
    specialize (IN _ Inn). unfold QP in IN. rewrite V in IN. exact (IN NB). }
  split; [exact Hb|]. split; [apply moved_clamp; auto; lra|]. split; [apply moved_clamp; auto; lra|].
  split; [cbn [uw clampu mix fin]; rewrite length_map2, !map_length; lia|].
  split; [intros i Hi; cbn [uw clampu mix fin]; apply nth_mixl; assumption|].
  destruct MX as [M|(c & M1 & M2 & M3)]; [left; exact M|right]. intros b' Hb'. specialize (M3 b' Hb').
  apply in_app_or in M1. destruct M1 as [M1|M1]; [left|right];
    apply In_nth with (d := ((0, 0), (XNaN, XNaN))) in M1; destruct M1 as (i & Hi & <-).
  - unfold QX in *. rewrite vars_length in Hi by assumption. exists i. rewrite vars_nth in M2, M3 by assumption.
    split; [exact Hi|]. split; [exact M2|exact M3].
  - unfold QP in *. rewrite vars_length in Hi by assumption. exists i. rewrite vars_nth in M2, M3 by assumption.
    split; [exact Hi|]. split; [exact M2|exact M3].
Qed.

Lemma moved_unchanged o v lo hi r : length v = length o -> all_inside lo hi v -> moved 1 o v lo hi r -> r = map XF v.
Proof.
  intros H1 HI (HL & H). apply nth_ext with (d := XNaN) (d' := XF 0); [rewrite map_length; lia|].
  intros i Hi. rewrite map_nth. rewrite HL in Hi. destruct (H i Hi) as (_ & H').
  assert (L1 : lin 1 (nth i o 0) (nth i v 0) = nth i v 0) by (unfold lin; ring).
  rewrite L1 in H'. apply H'. assert (Hv : (i < length v)%nat) by lia. specialize (HI i Hv). apply inside_iff in HI. destruct HI as [A1 A2].
  intros [[E L]|[E L]]; rewrite E in *; lra.
Qed.

Theorem backtrack_feasible : forall (xo x po p wo w : list R) (B : bounds xreal),
  length x = length xo -> length (xlo B) = length xo -> length (xhi B) = length xo ->
  length p = length po -> length (plo B) = length po -> length (phi_ B) = length po -> length w = length wo ->
  all_inside (xlo B) (xhi B) xo -> all_inside (plo B) (phi_ B) po ->
  all_inside (xlo B) (xhi B) x -> all_inside (plo B) (phi_ B) p ->
  backtrack false B (fin xo po wo) (fin x p w) = fin x p w.
Proof.
  intros xo x po p wo w B X1 X2 X3 P1 P2 P3 W1 XI PI XJ PJ.
  destruct (backtrack_correct xo x po p wo w B X1 X2 X3 P1 P2 P3 W1 XI PI) as (b & H).
  cbn zeta in H. destruct H as (Hb & HX & HP & HL & HW & HM).
  assert (E : b = 1).
  { destruct HM as [M|M]; [exact M|]. destruct (Rle_lt_or_eq_dec b 1 (proj2 Hb)) as [L|L]; [|exact L]. exfalso.
    destruct (M 1 L) as [(i & Hi & _ & O)|(i & Hi & _ & O)]; apply O.
    - replace (lin 1 (nth i xo 0) (nth i x 0)) with (nth i x 0) by (unfold lin; ring). apply XJ. lia.
    - replace (lin 1 (nth i po 0) (nth i p 0)) with (nth i p 0) by (unfold lin; ring). apply PJ. lia. }
  subst b. apply moved_unchanged in HX; [|assumption|assumption]. apply moved_unchanged in HP; [|assumption|assumption].
  destruct (backtrack false B (fin xo po wo) (fin x p w)) as [x' p' w'] eqn:EU. cbn [ux up uw] in *. subst x' p'.
  unfold fin. f_equal. apply nth_ext with (d := XNaN) (d' := XF 0); [rewrite map_length; lia|].
  intros i Hi. rewrite map_nth, HW by lia. f_equal. unfold lin. ring.
Qed.

(** ** Line search *)
Lemma mix_one (uo u : uvec R) nx np nw : sized nx np nw uo -> sized nx np nw u -> mix 1 uo u = u.
Proof.
  intros (A1 & A2 & A3) (B1 & B2 & B3).
  assert (M : forall a b : list R, length a = length b -> map2 (mix1 1) a b = b).
  { intros a b E. apply nth_ext with (d := 0) (d' := 0); [rewrite length_map2; lia|].
    intros i Hi. rewrite nth_map2 by exact Hi. unfold mix1. simpl. ring. }
  destruct u as [x p w]. unfold mix. cbn in *. rewrite !M by lia. reflexivity.
Qed.

Theorem linesearch_correct : forall (err : uvec R -> R) fuel tol maxiters nx np nw (uo u u' : uvec R) e',
  0 < tol -> sized nx np nw uo -> sized nx np nw u -> linesearch fuel err tol maxiters uo u = Some (u', e') ->
  e' = err u' /\ err u' <= err u /\ exists alpha, 0 <= alpha <= 1 /\ u' = mix alpha uo u.
Proof.
  intros err fuel tol maxiters nx np nw uo u u' e' Ht S1 S2. unfold linesearch.
  change (@nzero R Num_R) with 0. change (@none1 R Num_R) with 1.
  destruct (minimizeBrent _ fuel 0 1 tol maxiters) as [[al ev]|] eqn:E; [|discriminate]. intros H. injection H as <- <-.
  apply brent_correct in E; [|lra|exact Ht]. destruct E as (E1 & _ & E3 & E4).
  split; [reflexivity|]. split.
  - destruct (E4 1 E3) as [_ L]. rewrite (mix_one uo u nx np nw S1 S2) in L. exact L.
  - exists al. split; [exact E1|reflexivity].
Qed.

Lemma mix1_between al o v lo hi : 0 <= al <= 1 -> lo <= o <= hi -> lo <= v <= hi -> lo <= mix1 al o v <= hi.
Proof. intros. unfold mix1. simpl. nra. Qed.
