(** Lemmas for C47-C55 and C69. *)
From Coq Require Import List Arith Bool ZArith Reals Lra Lia.
From Verif Require Import Num Num_facts Minimize_model Minimize_proofs Loop_model Loop_spec.
Import ListNotations.

Section Lists.
Context {T : Type} {N : Num T}.
Lemma length_map2 f (a b : list T) : length (map2 f a b) = Nat.min (length a) (length b).
Proof. unfold map2. rewrite map_length, combine_length. reflexivity. Qed.

Lemma nth_map2 f (a b : list T) i d : i < length (map2 f a b) -> nth i (map2 f a b) d = f (nth i a d) (nth i b d).
Proof.
  revert b i. induction a as [|x a IH]; intros [|y b] i H; cbn in H; try lia.
  destruct i as [|i]; [reflexivity|]. cbn. apply IH. unfold map2. lia.
Qed.

Lemma nth_clampv (v lo hi : list T) i d : i < length (clampv v lo hi) ->
  nth i (clampv v lo hi) d = nmin (nmax (nth i v d) (nth i lo d)) (nth i hi d).
Proof.
  intros H. unfold clampv in *. rewrite nth_map2 by exact H. rewrite nth_map2; [reflexivity|].
  rewrite length_map2 in H. lia.
Qed.

Lemma Forall2_nth (P : T -> T -> Prop) a b i d : Forall2 P a b -> i < length a -> P (nth i a d) (nth i b d).
Proof.
  intros H. revert i. induction H; intros i Hi; cbn in Hi; [lia|].
  destruct i; [assumption|]. cbn. apply IHForall2. lia.
Qed.

Lemma length_clampv (v lo hi : list T) : length lo = length v -> length hi = length v -> length (clampv v lo hi) = length v.
Proof. intros H1 H2. unfold clampv. rewrite !length_map2. lia. Qed.

Context {NT : NumTot T}.
Lemma clampv_within (v lo hi : list T) : Forall2 (fun l h => nleb l h = true) lo hi -> within lo (clampv v lo hi) hi.
Proof.
  intros H i Hi. rewrite nth_clampv by exact Hi.
  assert (Hl : i < length lo). { unfold clampv in Hi. rewrite !length_map2 in Hi. lia. }
  pose proof (Forall2_nth _ _ _ i nzero H Hl) as HB. cbn beta in HB.
  pose proof (clip_within (nth i v nzero) _ _ HB) as C. cbn zeta in C.
  destruct (nnan (nmin (nmax (nth i v nzero) (nth i lo nzero)) (nth i hi nzero))); [left|right]; auto.
Qed.

Lemma clampu_inbox B nx np u : good_bounds nx np B -> inbox B (clampu B u).
Proof. intros (_ & _ & H1 & H2). split; apply clampv_within; assumption. Qed.

Lemma backtrack_inbox B nx np f uo u : good_bounds nx np B -> inbox B (backtrack f B uo u).
Proof. intros H. unfold backtrack. destruct f; apply clampu_inbox with nx np; exact H. Qed.
End Lists.

Lemma Forall2_len {A B} (P : A -> B -> Prop) l l' : Forall2 P l l' -> length l = length l'.
Proof. induction 1; cbn; congruence. Qed.

Lemma good_lengths {T} {N : Num T} nx np (B : bounds T) : good_bounds nx np B ->
  length (xlo B) = nx /\ length (xhi B) = nx /\ length (plo B) = np /\ length (phi_ B) = np.
Proof.
  intros (H1 & H2 & H3 & H4). apply Forall2_len in H3. apply Forall2_len in H4. lia.
Qed.

Lemma clampu_sized {T} {N : Num T} nx np nw (B : bounds T) u : good_bounds nx np B -> sized nx np nw u -> sized nx np nw (clampu B u).
Proof.
  intros G (H1 & H2 & H3). destruct (good_lengths _ _ _ G) as (G1 & G2 & G3 & G4).
  repeat split; cbn; [rewrite length_clampv; lia|rewrite length_clampv; lia|exact H3].
Qed.

Lemma mix_sized {T} {N : Num T} nx np nw (b : T) uo u : sized nx np nw uo -> sized nx np nw u -> sized nx np nw (mix b uo u).
Proof. intros (H1 & H2 & H3) (H4 & H5 & H6). repeat split; cbn; rewrite length_map2; lia. Qed.

Lemma backtrack_sized {T} {N : Num T} nx np nw (B : bounds T) f uo u : good_bounds nx np B -> sized nx np nw uo -> sized nx np nw u ->
  sized nx np nw (backtrack f B uo u).
Proof. intros G H1 H2. unfold backtrack. destruct f; apply clampu_sized; auto. apply mix_sized; auto. Qed.

Section LoopProofs.
Context {T : Type} {N : Num T}.
Variable W : Type.
Variable fupdate : W -> uvec T -> W.
Variable ferror : W -> uvec T -> T.
Variable newton : W -> W * uvec T.
Variable phi : option (W -> list T -> list T -> W * bool * list T).
Variable check : option (W -> uvec T -> uvec T -> T -> nat -> bool).
Notation step := (step W fupdate ferror newton phi).
Notation transform := (transform W fupdate ferror phi).
Notation stepping := (stepping W check).
Notation loop := (loop W fupdate ferror newton phi check).
Notation solve := (solve W fupdate ferror newton phi check).
Notation initialize := (initialize W fupdate ferror).
Notation newton_apply := (newton_apply W newton).
Notation update := (update W fupdate ferror).

Lemma newton_frame s : let s' := newton_apply s in
  s_uo s' = s_uo s /\ s_err s' = s_err s /\ s_iters s' = s_iters s /\ s_hist s' = s_hist s /\ s_evals s' = s_evals s /\ s_iterates s' = s_iterates s.
Proof. unfold newton_apply. destruct (newton (s_w s)) as [w du]. repeat split. Qed.

Lemma transform_frame B s : let s' := fst (transform B s) in
  s_uo s' = s_uo s /\ s_iters s' = s_iters s /\ s_hist s' = s_hist s /\ s_iterates s' = s_iterates s.
Proof.
  unfold transform. destruct phi as [ph|]; [|repeat split].
  destruct (ph _ _ _) as [[w out] x]. destruct out; cbn [negb]; [|repeat split].
  destruct (ngtb _ _); repeat split.
Qed.

(** What one step does to the recorded state *)
Lemma step_frame B o s : let s' := step B o s in
  s_uo s' = s_uo s /\ s_iters s' = S (s_iters s) /\ s_hist s' = s_hist s /\ s_iterates s' = s_u s' :: s_iterates s /\
  (exists w, s_w s' = fupdate w (s_u s')) /\ s_err s' = ferror (s_w s') (s_u s') /\
  exists u, s_u s' = backtrack (o_fix o) B (s_uo s) u.
Proof.
  unfold step. set (s0 := State _ _ _ _ _ _ _ _).
  pose proof (newton_frame s0) as H. cbn zeta in H. destruct H as (N1 & N2 & N3 & N4 & N5 & N6).
  pose proof (transform_frame B (newton_apply s0)) as H. cbn zeta in H.
  destruct (transform B (newton_apply s0)) as [s1 b]. cbn [fst] in H. destruct H as (T1 & T2 & T3 & T4).
  cbn. rewrite T1, T2, T3, T4, N1, N3, N4, N6. cbn.
  repeat split; eauto.
Qed.

Lemma stepping_frame o s : let '(s', c) := stepping o s in
  s_w s' = s_w s /\ s_u s' = s_u s /\ s_err s' = s_err s /\ s_iters s' = s_iters s /\ s_hist s' = s_hist s ++ [s_err s] /\
  s_evals s' = s_evals s /\ s_iterates s' = s_iterates s /\
  (c = true -> s_iters s <= o_maxiters o /\ s_uo s' = s_u s' /\ nltb (s_err s) (o_tol o) = false) /\
  (c = false -> o_maxiters o < s_iters s \/
     (nltb (s_err s) (o_tol o) = true \/ exists ck, check = Some ck /\ ck (s_w s) (s_uo s) (s_u s) (s_err s) (s_iters s) = true)).
Proof.
  unfold stepping. cbn [s_w s_uo s_u s_err s_iters s_hist s_evals s_iterates]. destruct (Nat.ltb_spec (o_maxiters o) (s_iters s)) as [H|H]; cbn.
  { do 7 (split; [reflexivity|]). split; [discriminate|]. intros _. left. exact H. }
  unfold converged. cbn. destruct (nltb (s_err s) (o_tol o)) eqn:E; cbn; do 7 (split; [reflexivity|]).
  { split; [discriminate|]. intros _. right. left. reflexivity. }
  split; [repeat split; assumption|]. intros C. right. right. destruct check as [ck|]; [|discriminate].
  exists ck. split; [reflexivity|]. destruct (ck _ _ _ _ _); [reflexivity|discriminate].
Qed.

Lemma stepping_stop o s : o_maxiters o < s_iters s -> snd (stepping o s) = false.
Proof. intros H. unfold stepping. cbn [s_iters]. rewrite (proj2 (Nat.ltb_lt _ _) H). reflexivity. Qed.

(** ** Termination *)
Lemma loop_terminates fuel B o s : (o_maxiters o - s_iters s < fuel) -> exists s', loop fuel B o s = Some s'.
Proof.
  revert s. induction fuel as [|fuel IH]; intros s H; [lia|]. cbn [Loop_model.loop].
  pose proof (step_frame B o s) as F. cbn zeta in F. destruct F as (_ & F2 & _).
  pose proof (stepping_frame o (step B o s)) as G.
  pose proof (stepping_stop o (step B o s)) as S.
  destruct (stepping o (step B o s)) as [s' c]. destruct G as (_ & _ & _ & G4 & _).
  destruct c; [|eauto]. apply IH. rewrite G4, F2.
  destruct (Nat.lt_ge_cases (o_maxiters o) (s_iters (step B o s))) as [L|L]; [specialize (S L); discriminate|].
  rewrite F2 in L. lia.
Qed.

Lemma loop_uo fuel B o s s' : loop fuel B o s = Some s' -> s_iters s' <= o_maxiters o -> s_uo s' = s_u s'.
Proof.
  revert s. induction fuel as [|fuel IH]; intros s; [discriminate|]. cbn [Loop_model.loop].
  destruct (stepping o (step B o s)) as [t c] eqn:E. destruct c; [apply IH|]. intros H L. injection H as <-.
  revert E. set (s1 := step B o s). unfold stepping. cbn [s_iters].
  destruct (Nat.ltb_spec (o_maxiters o) (s_iters s1)) as [X|X]; intros E; apply (f_equal fst) in E; cbn [fst] in E; subst t; cbn [s_uo s_u s_iters] in *; [lia|reflexivity].
Qed.
(** ** The final state.  [n] is the number of iterations done before [s]. *)
Lemma loop_final fuel B o s s' : loop fuel B o s = Some s' -> s_iters s <= o_maxiters o -> s_uo s = hd (s_u s) (s_iterates s) ->
  s_iterates s <> [] ->
  s_iters s < s_iters s' <= S (o_maxiters o) /\
  (exists w, s_w s' = fupdate w (s_u s')) /\ s_err s' = ferror (s_w s') (s_u s') /\
  (exists older errs, s_iterates s' = s_u s' :: older /\ length older = s_iters s' - S (s_iters s) + length (s_iterates s) /\
    s_hist s' = s_hist s ++ errs ++ [s_err s'] /\ length errs = s_iters s' - S (s_iters s) /\
    Forall (fun e => nltb e (o_tol o) = false) errs /\
    (s_iters s' <= o_maxiters o -> nltb (s_err s') (o_tol o) = true \/
      exists ck, check = Some ck /\ ck (s_w s') (hd (s_u s') older) (s_u s') (s_err s') (s_iters s') = true)).
Proof.
  revert s. induction fuel as [|fuel IH]; intros s; [discriminate|]. cbn [Loop_model.loop]. intros E Hm Huo Hne.
  pose proof (step_frame B o s) as F. cbn zeta in F. destruct F as (F1 & F2 & F3 & F4 & F5 & F6 & F7).
  pose proof (stepping_frame o (step B o s)) as G.
  destruct (stepping o (step B o s)) as [s1 c]. destruct G as (G1 & G2 & G3 & G4 & G5 & G6 & G7 & Gc & Gs).
  destruct c.
  - specialize (Gc eq_refl). destruct Gc as (C1 & C2 & C3).
    destruct (IH s1 E) as (I1 & I2 & I3 & older & errs & O1 & O2 & O3 & O4 & O5 & O6).
    { rewrite G4. exact C1. } { rewrite C2, G7, F4. cbn. exact G2. } { rewrite G7, F4. discriminate. }
    rewrite G4, F2 in *. split; [lia|]. split; [exact I2|]. split; [exact I3|].
    exists older, (s_err (step B o s) :: errs). repeat split; auto.
    + rewrite O2, G7, F4. cbn. lia.
    + rewrite O3, G5, F3, <- app_assoc. reflexivity.
    + cbn. rewrite O4. lia.
  - injection E as <-. rewrite G1, G2, G3, G4, G5, G7, F2, F3.
    split; [lia|]. split; [exact F5|]. split; [exact F6|].
    exists (s_iterates s), []. rewrite F4. repeat split; cbn; try lia; auto.
    intros L. destruct (Gs eq_refl) as [A|A]; [rewrite F2 in A; lia|].
    destruct A as [A|(ck & A1 & A2)]; [left; exact A|right; exists ck; split; [exact A1|]].
    rewrite F1, Huo, F2 in A2. destruct (s_iterates s); [congruence|]. exact A2.
Qed.

Lemma init_frame B w hist u : let s := initialize B w hist u in
  s_u s = clampu B u /\ s_uo s = clampu B u /\ s_iters s = 0 /\ s_hist s = hist /\ s_iterates s = [clampu B u] /\ s_evals s = [clampu B u] /\
  s_w s = fupdate w (clampu B u) /\ s_err s = ferror (s_w s) (s_u s).
Proof. repeat split. Qed.

(** ** Bounds *)
Context {NT : NumTot T}.
Lemma loop_inbox nx np fuel B o s s' : good_bounds nx np B -> loop fuel B o s = Some s' ->
  Forall (inbox B) (s_iterates s) -> Forall (inbox B) (s_iterates s').
Proof.
  intros G. revert s. induction fuel as [|fuel IH]; intros s; [discriminate|]. cbn [Loop_model.loop]. intros E H.
  pose proof (step_frame B o s) as F. cbn zeta in F. destruct F as (_ & _ & _ & F4 & _ & _ & u & F7).
  pose proof (stepping_frame o (step B o s)) as S.
  destruct (stepping o (step B o s)) as [s1 c]. destruct S as (_ & _ & _ & _ & _ & _ & S7 & _).
  assert (H1 : Forall (inbox B) (s_iterates s1)).
  { rewrite S7, F4. constructor; [|exact H]. rewrite F7. apply backtrack_inbox with nx np. exact G. }
  destruct c; [eapply IH; eauto|]. injection E as <-. exact H1.
Qed.

(** without a transformation, F is evaluated at the iterates only *)
Lemma step_evals B o s : phi = None -> s_evals (step B o s) = s_u (step B o s) :: s_evals s.
Proof.
  intros P. unfold step, transform. rewrite P. cbn.
  set (s0 := State _ _ _ _ _ _ _ _).
  pose proof (newton_frame s0) as H. cbn zeta in H. destruct H as (_ & _ & _ & _ & N5 & _). rewrite N5. reflexivity.
Qed.
Lemma loop_evals nx np fuel B o s s' : phi = None -> good_bounds nx np B -> loop fuel B o s = Some s' ->
  Forall (inbox B) (s_evals s) -> Forall (inbox B) (s_evals s').
Proof.
  intros P G. revert s. induction fuel as [|fuel IH]; intros s; [discriminate|]. cbn [Loop_model.loop]. intros E H.
  pose proof (step_frame B o s) as F. cbn zeta in F. destruct F as (_ & _ & _ & _ & _ & _ & u & F7).
  pose proof (step_evals B o s P) as SE.
  pose proof (stepping_frame o (step B o s)) as S.
  destruct (stepping o (step B o s)) as [s1 c]. destruct S as (_ & _ & _ & _ & _ & S6 & _).
  assert (H1 : Forall (inbox B) (s_evals s1)).
  { rewrite S6, SE. constructor; [|exact H]. rewrite F7. apply backtrack_inbox with nx np. exact G. }
  destruct c; [eapply IH; eauto|]. injection E as <-. exact H1.
Qed.

(** ** Sizes *)
Variables (nx np nw : nat) (B : bounds T).
Hypothesis GB : good_bounds nx np B.
Hypothesis newton_sized : forall w, sized nx np nw (snd (newton w)).
Hypothesis phi_sized : forall ph w xo x, phi = Some ph -> length x = nx -> length (snd (ph w xo x)) = nx.
Lemma step_sized o s : sized nx np nw (s_uo s) -> sized nx np nw (s_u (step B o s)).
Proof.
  intros H. unfold step. set (s0 := State _ _ _ _ _ _ _ _).
  assert (H1 : sized nx np nw (s_u (newton_apply s0))).
  { unfold newton_apply. pose proof (newton_sized (s_w s0)) as D. destruct (newton (s_w s0)) as [w du]. cbn in *.
    destruct H as (A1 & A2 & A3), D as (D1 & D2 & D3). repeat split; cbn; rewrite length_map2; lia. }
  assert (H2 : sized nx np nw (s_u (fst (transform B (newton_apply s0))))).
  { unfold transform. destruct phi as [ph|] eqn:EP; [|exact H1].
    pose proof (phi_sized ph (s_w (newton_apply s0)) (ux (s_uo (newton_apply s0))) (ux (s_u (newton_apply s0))) eq_refl (proj1 H1)) as PS.
    destruct (ph _ _ _) as [[w out] x]. destruct out; cbn; [|exact H1]. cbn in PS.
    destruct (ngtb _ _); cbn; [exact H1|]. destruct (good_lengths _ _ _ GB) as (G1 & G2 & G3 & G4).
    destruct H1 as (A1 & A2 & A3). repeat split; cbn; try assumption. rewrite length_clampv; lia. }
  pose proof (newton_frame s0) as NF. cbn zeta in NF. destruct NF as (N1 & _).
  pose proof (transform_frame B (newton_apply s0)) as TF. cbn zeta in TF.
  destruct (transform B (newton_apply s0)) as [s1 b]. cbn [fst] in *. destruct TF as (T1 & _). cbn.
  apply backtrack_sized; auto. rewrite T1, N1. exact H.
Qed.
Lemma loop_sized fuel o s s' : loop fuel B o s = Some s' -> sized nx np nw (s_uo s) ->
  Forall (sized nx np nw) (s_iterates s) -> Forall (sized nx np nw) (s_iterates s').
Proof.
  revert s. induction fuel as [|fuel IH]; intros s; [discriminate|]. cbn [Loop_model.loop]. intros E H HF.
  pose proof (step_frame B o s) as F. cbn zeta in F. destruct F as (F1 & _ & _ & F4 & _).
  pose proof (step_sized o s H) as SZ.
  pose proof (stepping_frame o (step B o s)) as S.
  destruct (stepping o (step B o s)) as [s1 c]. destruct S as (_ & S2 & _ & _ & _ & _ & S7 & S8 & _).
  assert (H1 : Forall (sized nx np nw) (s_iterates s1)) by (rewrite S7, F4; constructor; assumption).
  destruct c; [|injection E as <-; exact H1].
  destruct (S8 eq_refl) as (_ & U & _). eapply IH; eauto. rewrite U, S2. exact SZ.
Qed.
End LoopProofs.

(** ** Independence of the history *)
Section History.
Context {T : Type} {N : Num T}.
Variable W : Type.
Variable fupdate : W -> uvec T -> W.
Variable ferror : W -> uvec T -> T.
Variable newton : W -> W * uvec T.
Variable phi : option (W -> list T -> list T -> W * bool * list T).
Variable check : option (W -> uvec T -> uvec T -> T -> nat -> bool).
Definition seth (h : list T) (s : state T W) : state T W :=
  State (s_w s) (s_uo s) (s_u s) (s_err s) (s_iters s) h (s_evals s) (s_iterates s).
Notation step := (step W fupdate ferror newton phi).
Notation loop := (loop W fupdate ferror newton phi check).

Lemma step_hist B o h s : step B o (seth h s) = seth h (step B o s).
Proof.
  unfold Loop_model.step, Loop_model.newton_apply. cbn. destruct (newton (s_w s)) as [w du]. cbn.
  unfold Loop_model.transform. destruct phi as [ph|]; cbn; [|reflexivity].
  destruct (ph _ _ _) as [[w' out] x]. destruct out; cbn; [|reflexivity]. destruct (ngtb _ _); reflexivity.
Qed.
Lemma loop_hist fuel B o : forall h1 h2 s, exists t,
  option_map (seth []) (loop fuel B o (seth h1 s)) = option_map (seth []) (loop fuel B o (seth h2 s)) /\
  option_map (@s_hist T W) (loop fuel B o (seth h1 s)) = option_map (app h1) t /\
  option_map (@s_hist T W) (loop fuel B o (seth h2 s)) = option_map (app h2) t.
Proof.
  induction fuel as [|fuel IH]; intros h1 h2 s; [exists None; repeat split|].
  cbn [Loop_model.loop]. rewrite !step_hist. set (s' := step B o s).
  unfold stepping. cbn [s_w s_uo s_u s_err s_iters s_hist s_evals s_iterates seth]. destruct (Nat.ltb (o_maxiters o) (s_iters s')) eqn:E.
  { exists (Some [s_err s']). repeat split. }
  unfold converged. cbn. destruct (nltb (s_err s') (o_tol o)); cbn.
  { exists (Some [s_err s']). repeat split. }
  destruct check as [ck|]; cbn.
  - destruct (ck _ _ _ _ _); cbn; [exists (Some [s_err s']); repeat split|].
    destruct (IH (h1 ++ [s_err s']) (h2 ++ [s_err s']) (State (s_w s') (s_u s') (s_u s') (s_err s') (s_iters s') [] (s_evals s') (s_iterates s'))) as (t & H1 & H2 & H3).
    exists (option_map (cons (s_err s')) t). unfold seth in *. cbn in *. rewrite H1, H2, H3.
    split; [reflexivity|]. destruct t; cbn; rewrite <- ?app_assoc; split; reflexivity.
  - destruct (IH (h1 ++ [s_err s']) (h2 ++ [s_err s']) (State (s_w s') (s_u s') (s_u s') (s_err s') (s_iters s') [] (s_evals s') (s_iterates s'))) as (t & H1 & H2 & H3).
    exists (option_map (cons (s_err s')) t). unfold seth in *. cbn in *. rewrite H1, H2, H3.
    split; [reflexivity|]. destruct t; cbn; rewrite <- ?app_assoc; split; reflexivity.
Qed.
End History.
