(** Proofs about Output_model. *)
From Coq Require Import List Arith Bool String Ascii Lia.
From Verif Require Import Output_model Output_spec.
Import ListNotations.
Local Open Scope nat_scope.
Local Open Scope list_scope.
Local Notation "a +++ b" := (String.append a b) (at level 60, right associativity).
Local Notation slen := String.length.

Lemma append_assoc a b c : (a +++ b) +++ c = a +++ b +++ c.
Proof. induction a as [|x a IH]; [reflexivity|]. cbn. rewrite IH. reflexivity. Qed.
Lemma append_nil a : a +++ EmptyString = a.
Proof. induction a as [|x a IH]; [reflexivity|]. cbn. rewrite IH. reflexivity. Qed.
Lemma slen_append a b : slen (a +++ b) = slen a + slen b.
Proof. induction a as [|x a IH]; [reflexivity|]. cbn. rewrite IH. reflexivity. Qed.
Lemma slen_fill n c : slen (fill n c) = n.
Proof. induction n as [|n IH]; [reflexivity|]. cbn. rewrite IH. reflexivity. Qed.
Lemma slen_setw n s : slen s <= n -> slen (setw_left n s) = n.
Proof. intros H. unfold setw_left. rewrite slen_append, slen_fill. lia. Qed.
Lemma colwidth_max w s : colwidth w s = Nat.max w (slen s + 4).
Proof. unfold colwidth. destruct (Nat.ltb_spec (slen s + 4) w); lia. Qed.
Lemma text_app l l' : text (l ++ l') = text l +++ text l'.
Proof. induction l as [|a l IH]; [reflexivity|]. cbn. rewrite IH, append_assoc. reflexivity. Qed.

Lemma text_nth l k f : nth_error l k = Some f ->
  text l = text (firstn k l) +++ f +++ text (skipn (S k) l).
Proof.
  revert k. induction l as [|a l IH]; intros [|k] H; cbn in H; try discriminate.
  - injection H as <-. reflexivity.
  - cbn [text firstn skipn]. rewrite (IH _ H), append_assoc. reflexivity.
Qed.

(** fields of the widths of the columns begin at the columns *)
Lemma fields_at_column sep width headings fields k part rest : List.length fields = List.length headings ->
  (forall j, j < List.length headings -> j < k -> slen (nth j fields EmptyString) = takes sep width (nth j headings EmptyString)) ->
  nth_error fields k = Some (part +++ rest) ->
  at_column (column sep width headings k) part (text fields).
Proof.
  intros L H N. exists (text (firstn k fields)), (rest +++ text (skipn (S k) fields)). split.
  - rewrite (text_nth _ _ _ N), append_assoc. reflexivity.
  - clear N. revert k headings L H. induction fields as [|f fields IH]; intros [|k] [|h headings] L H; cbn in L; try discriminate; try reflexivity.
    cbn [firstn text column]. rewrite slen_append. f_equal.
    + apply (H 0); cbn; lia.
    + apply IH; [lia|]. intros j Hj Hk. apply (H (S j)); cbn; lia.
Qed.

Lemma at_column_get c a line : at_column c (String a EmptyString) line -> String.get c line = Some a.
Proof.
  intros (b & t & -> & <-). induction b as [|x b IH]; [reflexivity|]. exact IH.
Qed.

Lemma header_nth sep width entries k e : nth_error entries k = Some e ->
  exists rest, nth_error (header_fields sep width entries) k = Some (e +++ rest).
Proof.
  intros N. unfold header_fields. rewrite (map_nth_error _ _ _ N). destruct (String.eqb_spec e sep) as [->|H].
  - exists EmptyString. rewrite append_nil. reflexivity.
  - unfold setw_left. eexists. reflexivity.
Qed.
Lemma header_len sep width entries j : j < List.length entries ->
  slen (nth j (header_fields sep width entries) EmptyString) = takes sep width (nth j entries EmptyString).
Proof.
  intros Hj. unfold header_fields, takes.
  rewrite (nth_indep _ EmptyString ((fun e => if String.eqb e sep then sep else setw_left (colwidth width e) e) EmptyString)) by (rewrite map_length; exact Hj).
  rewrite (map_nth (fun e => if String.eqb e sep then sep else setw_left (colwidth width e) e)).
  destruct (String.eqb_spec (nth j entries EmptyString) sep); [reflexivity|].
  rewrite <- colwidth_max. apply slen_setw. rewrite colwidth_max. lia.
Qed.
Lemma bar_len sep width entries : slen (bar_line sep width entries) = slen (header_line sep width entries).
Proof.
  unfold bar_line, header_line, bar_fields, header_fields.
  induction entries as [|e l IH]; [reflexivity|]. cbn [map text]. rewrite !slen_append, IH. f_equal.
  destruct (String.eqb e sep); [reflexivity|]. unfold barstr. rewrite slen_fill, slen_setw; [reflexivity|]. rewrite colwidth_max; lia.
Qed.

(** columns of one width, or without separators: each value gets the width of its column *)
Lemma state_fields_spec sep width : forall (entries0 values entries : list string),
  List.length entries = List.length values ->
  (forall k v e, nth_error values k = Some v -> nth_error entries k = Some e -> (v = sep <-> e = sep)) ->
  ((forall e, In e entries -> e <> sep) /\ entries0 = entries \/
   ((forall e, In e (entries0 ++ entries) -> slen e + 4 <= width) /\ 4 <= width /\ List.length values <= List.length entries0)) ->
  List.length (state_fields sep width entries0 values) = List.length values /\
  forall k v e, nth_error values k = Some v -> nth_error entries k = Some e ->
    exists n, nth_error (state_fields sep width entries0 values) k = Some (setw_left n v) /\ n = if String.eqb e sep then 0 else Nat.max width (slen e + 4).
Proof.
  intros entries0 values. revert entries0. induction values as [|v values IH]; intros entries0 [|e entries] L SE H; cbn in L; try discriminate.
  - split; [reflexivity|]. intros [|k] v e; cbn; discriminate.
  - cbn [state_fields]. assert (SE0 : v = sep <-> e = sep) by (apply (SE 0); reflexivity).
    assert (SE' : forall k v e, nth_error values k = Some v -> nth_error entries k = Some e -> v = sep <-> e = sep) by (intros k; apply (SE (S k))).
    destruct (String.eqb_spec v sep) as [Ev|Ev].
    + destruct H as [[H _]|(H & W4 & LE)]; [exfalso; apply (H e); [left; reflexivity|apply SE0; exact Ev]|].
      destruct (IH entries0 entries) as [L' H']; [lia|exact SE'| |].
      { right. split; [|cbn in LE; split; [exact W4|lia]]. intros e' I. apply H. apply in_app_or in I. apply in_or_app. cbn. tauto. }
      split; [cbn; rewrite L'; reflexivity|]. intros [|k] v' e' N1 N2; [|exact (H' _ _ _ N1 N2)].
      injection N1 as <-. injection N2 as <-. exists 0. split; [cbn; unfold setw_left; cbn; rewrite append_nil; subst; reflexivity|].
      destruct (String.eqb_spec e sep) as [_|X]; [reflexivity|]. tauto.
    + assert (CW : colwidth width (hd EmptyString entries0) = Nat.max width (slen e + 4)).
      { rewrite colwidth_max. destruct H as [[_ ->]|(H & W4 & LE)]; [reflexivity|].
        assert (slen e + 4 <= width) by (apply H; apply in_or_app; right; left; reflexivity).
        destruct entries0 as [|e0 es]; cbn [hd String.length]; [lia|].
        assert (slen e0 + 4 <= width) by (apply H; left; reflexivity). lia. }
      destruct (IH (tl entries0) entries) as [L' H']; [lia|exact SE'| |].
      { destruct H as [[H ->]|(H & W4 & LE)].
        - left. split; [intros e' I; apply H; right; exact I|reflexivity].
        - right. split; [|split; [exact W4|]].
          + intros e' I. apply H. apply in_app_or in I. apply in_or_app. destruct I as [I|I]; [left|right; right; exact I].
            destruct entries0; [destruct I|right; exact I].
          + destruct entries0; cbn in LE |- *; lia. }
      split; [cbn; rewrite L'; reflexivity|]. intros [|k] v' e' N1 N2; [|exact (H' _ _ _ N1 N2)].
      injection N1 as <-. injection N2 as <-. eexists. split; [reflexivity|]. rewrite CW.
      destruct (String.eqb_spec e sep) as [X|_]; [tauto|reflexivity].
Qed.
