(** Property theorems C96: the error status of Optima/ErrorStatus.cpp, in double precision. *)
From Coq Require Import Reals ZArith List Bool Lia Lra.
From Coq Require Import Floats.SpecFloat.
From Flocq Require Import Core.
From Verif Require Import Num Step_proofs Round_spec Float_proofs Round_proofs FSum_proofs ErrorStatus_model ErrorStatus_proofs.
Import ListNotations.
Local Open Scope R_scope.

(** ** The answers compare the error of the last update with the one before it since the last
    initialize, +inf if there is none; nothing else that was done before matters. *)
Theorem C96_last_two : forall (T : Type) (N : Num T) (s : estatus T) (before : list (esop T)) o (es : list T) (e : T),
  let f := es_run s (before ++ [SetOptions o; Initialize] ++ map Update es ++ [Update e]) in
  let prev := last es ninf in
  errorHasDecreased f = nltb e prev /\ errorHasIncreased f = nltb prev e /\
  errorHasDecreasedSignificantly f = nltb e (nmul (significantly_decreased o) prev) /\
  errorHasIncreasedSignificantly f = nltb (nmul (significantly_increased o) prev) e /\
  errorIsntFinite f = negb (nfinite e) /\ es_err f = e.
Proof.
  intros T N s before o es e f prev. unfold f, es_run. rewrite fold_left_app. cbn [app fold_left].
  set (s0 := es_do (es_do (fold_left es_do before s) (SetOptions o)) Initialize).
  assert (O : es_opts s0 = o) by reflexivity. assert (Er : es_err s0 = ninf) by reflexivity. clearbody s0.
  change [Update e] with (map (@Update T) [e]). rewrite <- map_app.
  destruct (run_updates (es ++ [e]) s0) as (H1 & H2 & H3). unfold es_run in H1, H2, H3.
  assert (L : forall d, last (es ++ [e]) d = e) by (intros; apply last_last). rewrite L in H2. rewrite removelast_last in H3. rewrite Er in H3.
  unfold errorHasDecreased, errorHasIncreased, errorHasDecreasedSignificantly, errorHasIncreasedSignificantly, errorIsntFinite, ngtb.
  rewrite H1, H2, H3, O by (destruct es; discriminate). repeat split.
Qed.
Print Assumptions C96_last_two.

(** ** The same for every sequence of calls on a new object, with the options set at any time: what
    counts are the options set last and the errors since the last initialize. *)
Fixpoint errors_since {T} (cs : list (esop T)) (es : list T) : list T :=
  match cs with
  | [] => es
  | Initialize :: cs' => errors_since cs' []
  | Update e :: cs' => errors_since cs' (es ++ [e])
  | SetOptions _ :: cs' => errors_since cs' es
  end.
Fixpoint options_last {T} (cs : list (esop T)) (o : esopts T) : esopts T :=
  match cs with
  | [] => o
  | SetOptions o' :: cs' => options_last cs' o'
  | _ :: cs' => options_last cs' o
  end.
Theorem C96_history : forall (T : Type) (N : Num T) dflt (cs : list (esop T)),
  let f := es_run (es_new dflt) cs in
  let o := options_last cs dflt in
  let errors := errors_since cs [] in
  let e := last errors ninf in
  let prev := last (removelast errors) ninf in
  errorHasDecreased f = nltb e prev /\ errorHasIncreased f = nltb prev e /\
  errorHasDecreasedSignificantly f = nltb e (nmul (significantly_decreased o) prev) /\
  errorHasIncreasedSignificantly f = nltb (nmul (significantly_increased o) prev) e /\
  errorIsntFinite f = negb (nfinite e).
Proof.
  intros T N dflt cs f o errors e prev.
  assert (G : forall cs s es, es_err s = last es ninf -> es_prev s = last (removelast es) ninf ->
    es_opts (es_run s cs) = options_last cs (es_opts s) /\ es_err (es_run s cs) = last (errors_since cs es) ninf /\
    es_prev (es_run s cs) = last (removelast (errors_since cs es)) ninf).
  { clear. induction cs as [|c cs IH]; intros s es E P; [auto|].
    unfold es_run. cbn [fold_left]. fold (es_run (es_do s c) cs).
    destruct c as [o| |e]; cbn [errors_since options_last].
    - apply (IH (es_do s (SetOptions o)) es E P).
    - apply (IH (es_do s Initialize) []); reflexivity.
    - apply (IH (es_do s (Update e)) (es ++ [e])); cbn [es_do es_update es_err es_prev].
      + now rewrite last_last.
      + rewrite removelast_last. exact E. }
  destruct (G cs (es_new dflt) []) as (H1 & H2 & H3); [reflexivity|reflexivity|].
  fold f in H1, H2, H3. change (es_opts (es_new dflt)) with dflt in H1. fold o in H1. fold errors e in H2. fold errors prev in H3.
  unfold errorHasDecreased, errorHasIncreased, errorHasDecreasedSignificantly, errorHasIncreasedSignificantly, errorIsntFinite, ngtb.
  rewrite H1, H2, H3. repeat split.
Qed.
Print Assumptions C96_history.

(** ** An error has not both decreased and increased; a significant decrease is a decrease when the
    factor is at most 1, and a significant increase is an increase when the factor is at least 1:
    for all errors e, prev >= 0 of double precision, also infinite ones. *)
Theorem C96_consistent : forall (s : estatus spec_float), valid (es_err s) -> valid (es_prev s) ->
  ~ (errorHasDecreased s = true /\ errorHasIncreased s = true) /\
  (nleb nzero (es_prev s) = true -> isfin (significantly_decreased (es_opts s)) -> 0 < V (significantly_decreased (es_opts s)) <= 1 ->
   errorHasDecreasedSignificantly s = true -> errorHasDecreased s = true) /\
  (nleb nzero (es_prev s) = true -> isfin (significantly_increased (es_opts s)) -> 1 <= V (significantly_increased (es_opts s)) ->
   errorHasIncreasedSignificantly s = true -> errorHasIncreased s = true).
Proof.
  intros s Ve Vp. unfold errorHasDecreased, errorHasIncreased, errorHasDecreasedSignificantly, errorHasIncreasedSignificantly, ngtb.
  split; [|split].
  - rewrite !xltb_of by assumption. destruct (xof (es_err s)), (xof (es_prev s)); cbn; intros [A B]; try discriminate.
    apply rltb_true in A, B. lra.
  - intros Px Ff Pf H. eapply dec_sig; eauto.
  - intros Px Ff Pf H. eapply inc_sig; eauto.
Qed.
Print Assumptions C96_consistent.

(** ** The assertions hold during initialize and the updates that follow it exactly if the options
    are positive, no error is negative or NaN, and the first error that is not infinite, if any, is
    positive. *)
Definition infinite (e : spec_float) : bool := match e with S754_infinity _ => true | _ => false end.
Definition first_real (es : list spec_float) : option spec_float := find (fun e => negb (infinite e)) es.
Lemma isinf_infinite e : isinf e = infinite e.
Proof. now destruct e. Qed.
Definition positive (x : spec_float) : Prop := nltb nzero x = true.
Theorem C96_assertions : forall (s : estatus spec_float) o es, es_ok s = true ->
  es_ok (es_run s ([SetOptions o; Initialize] ++ map Update es)) = true <->
  (positive (significantly_increased o) /\ positive (significantly_decreased o) /\ positive (significantly_increased_initial o)) /\
  (forall e, In e es -> nleb nzero e = true) /\
  (forall e, first_real es = Some e -> positive e).
Proof.
  intros s o es Hs. unfold es_run. rewrite fold_left_app. cbn [fold_left es_do]. unfold es_setOptions, es_initialize. cbn [es_opts es_ok]. rewrite Hs. cbn [andb].
  set (P := positive (significantly_increased o) /\ positive (significantly_decreased o) /\ positive (significantly_increased_initial o)).
  assert (SN : forall f p e, sane o f p e = true <-> P /\ positive f /\ nleb nzero p = true /\ nleb nzero e = true).
  { intros f p e. unfold sane, ngtb, P, positive. rewrite !andb_true_iff. tauto. }
  assert (mono : forall l t, es_ok (fold_left es_do (map Update l) t) = true -> es_ok t = true).
  { induction l as [|a l IH]; intros t H; [exact H|]. cbn [map fold_left es_do] in H. apply IH in H. unfold es_update in H. cbn [es_ok] in H. now apply andb_prop in H. }
  assert (G : forall l f p e ok, nleb nzero e = true -> P ->
    (es_ok (fold_left es_do (map Update l) (EStatus o f p e ok)) = true <->
     ok = true /\ (forall x, In x l -> nleb nzero x = true) /\ (l = [] \/ (if isinf f then positive ninf -> forall x, first_real l = Some x -> positive x else positive f)))).
  { induction l as [|a l IH]; intros f p e ok He HP.
    - cbn. split; [intros ->; repeat split; [contradiction|now left]|intros [-> _]; reflexivity].
    - cbn [map fold_left es_do]. unfold es_update. cbn [es_opts es_first es_err es_ok].
      split.
      + intros H. assert (M := mono _ _ H). cbn [es_ok] in M. apply andb_prop in M as [-> M]. apply SN in M. destruct M as (_ & Pf & Pe & Pa).
        apply IH in H; [|exact Pa|exact HP]. destruct H as (_ & H2 & H3). split; [reflexivity|]. split.
        * intros x [<-|Hx]; auto.
        * right. destruct (isinf f) eqn:If; [|exact Pf]. intros _ x. unfold first_real. cbn [find]. rewrite <- isinf_infinite.
          destruct (isinf a) eqn:Ia; cbn [negb]; [|intros Q; injection Q as <-; exact Pf].
          intros Q. destruct H3 as [->|H3]; [discriminate|]. apply H3; [reflexivity|exact Q].
      + intros (-> & H2 & [H3|H3]); [discriminate|].
        assert (Pa : nleb nzero a = true) by (apply H2; now left).
        assert (Pf : positive (if isinf f then a else f)).
        { destruct (isinf f) eqn:If; [|exact H3]. destruct (isinf a) eqn:Ia.
          - revert Pa Ia. unfold positive. destruct a as [| [|]| | ]; cbn; try discriminate; reflexivity.
          - apply H3; [reflexivity|]. unfold first_real. cbn [find]. rewrite <- isinf_infinite. rewrite Ia. reflexivity. }
        apply IH; [exact Pa|exact HP|]. split; [cbn [andb]; apply SN; tauto|]. split; [intros x Hx; apply H2; now right|].
        right. destruct (isinf f) eqn:If.
        * destruct (isinf a) eqn:Ia; [|exact Pf]. intros _ x Q. apply H3; [reflexivity|]. unfold first_real. cbn [find]. rewrite <- isinf_infinite. rewrite Ia. exact Q.
        * rewrite If. exact H3. }
  assert (P0 : positive ninf) by reflexivity. assert (L0 : nleb (nzero : spec_float) ninf = true) by reflexivity.
  split.
  - intros H. assert (M := mono _ _ H). cbn [es_ok] in M. apply SN in M. destruct M as (HP & _). split; [exact HP|].
    apply G in H; [|exact L0|exact HP]. destruct H as (_ & H2 & H3). split; [exact H2|]. intros e Q.
    destruct H3 as [->|H3]; [discriminate|]. cbn in H3. auto.
  - intros (HP & H2 & H3). apply G; [exact L0|exact HP|]. split; [apply SN; auto|]. split; [exact H2|]. right. cbn. auto.
Qed.
Print Assumptions C96_assertions.

(** A new object needs no initialize. *)
Theorem C96_new : forall (s : estatus spec_float) o e es, es_ok s = true ->
  es_ok (es_run (es_new o) (map Update (e :: es))) = es_ok (es_run s ([SetOptions o; Initialize] ++ map Update (e :: es))).
Proof.
  intros s o e es Hs. unfold es_run. rewrite fold_left_app. cbn [map fold_left es_do].
  unfold es_new, es_setOptions, es_initialize, es_update. cbn [es_opts es_first es_prev es_err es_ok]. rewrite Hs.
  f_equal. f_equal. f_equal. cbn [andb]. change (isinf ninf) with true. cbn iota. unfold sane.
  destruct (ngtb (significantly_increased o) nzero), (ngtb (significantly_decreased o) nzero), (ngtb (significantly_increased_initial o) nzero); reflexivity.
Qed.
Print Assumptions C96_new.

Definition one : spec_float := binary_normalize prec64 emax64 1 0 false.
Definition half : spec_float := binary_normalize prec64 emax64 1 (-1) false.
Definition two : spec_float := binary_normalize prec64 emax64 1 1 false.
Definition default : esopts spec_float := EsOpts two half one.
(** the errors 2, 1/2, 1 with the default options *)
Example C96_case : let f := es_run (es_new default) ([SetOptions default; Initialize] ++ map Update [two; half] ++ [Update one]) in
  es_ok f = true /\ errorHasIncreased f = true /\ errorHasIncreasedSignificantly f = false /\ errorHasDecreased f = false /\
  valid (es_err f) /\ valid (es_prev f) /\ isfin (significantly_increased default) /\ isfin (significantly_decreased default) /\
  nleb nzero (es_prev f) = true.
Proof. repeat split; vm_compute; reflexivity. Qed.

(** ** Refuted: updating with a legitimate error does not violate an assertion.  A first error of
    zero (an initial guess that is a solution) does, and so does NaN, one of the two cases for which
    errorIsntFinite is meant. *)
Theorem C96_zero_refuted : exists (s : estatus spec_float) es, es_ok s = true /\ es_ok (es_run s ([SetOptions default; Initialize] ++ map Update es)) = false /\
  forall e, In e es -> e = nzero.
Proof. exists (es_new default), [nzero]. split; [reflexivity|]. split; [vm_compute; reflexivity|]. intros e [<-|[]]. reflexivity. Qed.
Print Assumptions C96_zero_refuted.
Theorem C96_nan_asserts : forall (s : estatus spec_float) o es, es_ok (es_run s ([SetOptions o; Initialize] ++ map Update es ++ [Update S754_nan])) = false.
Proof.
  intros s o es. rewrite app_assoc. unfold es_run. rewrite fold_left_app. cbn [fold_left es_do]. unfold es_update. cbn [es_ok]. unfold sane.
  change (nleb nzero S754_nan) with false. rewrite !andb_false_r. reflexivity.
Qed.
Print Assumptions C96_nan_asserts.
