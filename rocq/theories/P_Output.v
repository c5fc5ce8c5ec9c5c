(** Property theorems C62 and C72. *)
From Coq Require Import List Arith Bool String Ascii Lia.
From Verif Require Import Output_model Output_spec Output_proofs.
Import ListNotations.
Local Open Scope nat_scope.
Local Open Scope list_scope.
Local Notation "a +++ b" := (String.append a b) (at level 60, right associativity).
Local Notation slen := String.length.

(** ** C62.  The headings begin at their columns, between bars of the same length ... *)
Theorem C62_header : forall sep width entries k e, nth_error entries k = Some e ->
  at_column (column sep width entries k) e (header_line sep width entries) /\
  slen (bar_line sep width entries) = slen (header_line sep width entries).
Proof.
  intros sep width entries k e N. split; [|apply bar_len].
  destruct (header_nth sep width _ _ _ N) as [rest N']. apply fields_at_column with rest; [apply map_length| |exact N'].
  intros j Hj _. apply header_len. exact Hj.
Qed.
Print Assumptions C62_header.

(** ... and so do the values that fit into their columns, when there are no separators or all
    columns have the same width.  Missing: separators between columns of different widths, see
    [C62_separator_refuted]. *)
Theorem C62_aligned_partial : forall sep width entries values line, state_line sep width entries values = Some line ->
  (forall k v e, nth_error values k = Some v -> nth_error entries k = Some e -> (v = sep <-> e = sep)) ->
  (forall e, In e entries -> e <> sep) \/ (forall e, In e entries -> slen e + 4 <= width) ->
  (forall k v e, nth_error values k = Some v -> nth_error entries k = Some e -> slen v <= takes sep width e) ->
  forall k v, nth_error values k = Some v -> at_column (column sep width entries k) v line.
Proof.
  intros sep width entries values line E SE U FIT k v N. unfold state_line in E.
  destruct (Nat.eqb_spec (List.length entries) (List.length values)) as [L|]; [|discriminate]. injection E as <-.
  assert (G : (forall e, In e entries -> e <> sep) /\ entries = entries \/
    ((forall e, In e (entries ++ entries) -> slen e + 4 <= width) /\ 4 <= width /\ List.length values <= List.length entries)).
  { destruct U as [U|U]; [left; split; [exact U|reflexivity]|right].
    split; [|split; [|lia]].
    - intros e I. apply U. apply in_app_or in I. tauto.
    - destruct entries as [|e es]; [|specialize (U e (or_introl eq_refl)); lia].
      destruct values; [destruct k; discriminate N|discriminate L]. }
  destruct (state_fields_spec sep width entries values entries L SE G) as [LF HF].
  assert (NE : forall j v, nth_error values j = Some v -> exists e, nth_error entries j = Some e).
  { intros j w Hw. destruct (nth_error entries j) as [e|] eqn:X; [eauto|]. apply nth_error_None in X.
    assert (j < List.length values) by (apply nth_error_Some; congruence). lia. }
  destruct (NE _ _ N) as [e Ne]. destruct (HF _ _ _ N Ne) as (n & Nf & _).
  apply fields_at_column with (fill (n - slen v) " "%char); [lia| |exact Nf].
  intros j Hj _. destruct (nth_error values j) as [w|] eqn:Nw; [|apply nth_error_None in Nw; lia].
  destruct (NE _ _ Nw) as [e' Ne']. destruct (HF _ _ _ Nw Ne') as (n' & Nf' & ->).
  rewrite (nth_error_nth _ _ _ Nf'), (nth_error_nth _ _ _ Ne'). specialize (FIT _ _ _ Nw Ne'). unfold takes in FIT |- *.
  specialize (SE _ _ _ Nw Ne').
  destruct (String.eqb_spec e' sep) as [X|X].
  - unfold setw_left. cbn. rewrite append_nil. rewrite (proj2 SE X). reflexivity.
  - apply slen_setw. exact FIT.
Qed.
Print Assumptions C62_aligned_partial.

(** a line without separators, and one with columns of one width *)
Example C62_case : exists l l',
  state_line "|" 15 ["x"; "a long column name"; "y"]%string ["1"; "2"; "3"]%string = Some l /\
  state_line "|" 15 ["x"; "|"; "y"; "|"; "z"]%string ["1"; "|"; "2"; "|"; "3"]%string = Some l' /\
  column "|" 15 ["x"; "a long column name"; "y"]%string 2 = 37.
Proof. eexists. eexists. split; [reflexivity|]. split; reflexivity. Qed.

(** After a separator each value is written with the width of the column before its own: the
    last value is 7 columns to the left of its heading. *)
Theorem C62_separator_refuted : let entries := ["a"; "|"; "a long column name"; "b"]%string in
  let values := ["1"; "|"; "2"; "3"]%string in
  exists line, state_line "|" 15 entries values = Some line /\
  (forall k v e, nth_error values k = Some v -> nth_error entries k = Some e -> (v = "|"%string <-> e = "|"%string) /\ slen v <= takes "|" 15 e) /\
  at_column (column "|" 15 entries 3) "b" (header_line "|" 15 entries) /\
  ~ at_column (column "|" 15 entries 3) "3" line /\ at_column (column "|" 15 entries 3 - 7) "3" line.
Proof.
  cbv zeta. eexists. split; [reflexivity|]. split; [|split; [|split]].
  - intros k v e. do 4 (destruct k as [|k]; [cbn; intros X Y; injection X as <-; injection Y as <-; split; [split; congruence|cbv; lia]|]).
    intros X. destruct k; discriminate X.
  - apply C62_header. reflexivity.
  - intros H. apply at_column_get in H. revert H. vm_compute. discriminate.
  - exists (text (firstn 3 (state_fields "|" 15 ["a"; "|"; "a long column name"; "b"]%string ["1"; "|"; "2"; "3"]%string))), (fill 21 " "%char).
    split; reflexivity.
Qed.
Print Assumptions C62_separator_refuted.

(** A value that does not fit shifts those after it. *)
Theorem C62_long_value_refuted : let entries := ["a"; "b"]%string in
  let values := ["a value of 22 letters."; "3"]%string in
  exists line, state_line "|" 15 entries values = Some line /\
  at_column (column "|" 15 entries 1) "b" (header_line "|" 15 entries) /\ ~ at_column (column "|" 15 entries 1) "3" line.
Proof.
  cbv zeta. eexists. split; [reflexivity|]. split.
  - apply C62_header. reflexivity.
  - intros H. apply at_column_get in H. revert H. vm_compute. discriminate.
Qed.
Print Assumptions C62_long_value_refuted.

(** ** C72.  In the table of MasterSolver each value is below its own heading. *)
Lemma combine_app {A B} (a a' : list A) (b b' : list B) : List.length a = List.length b -> combine (a ++ a') (b ++ b') = combine a b ++ combine a' b'.
Proof. revert b. induction a as [|x a IH]; intros [|y b] L; cbn in *; try discriminate; [reflexivity|]. f_equal. apply IH. lia. Qed.

Lemma addEntries_spec num prefix size names l values : addEntries num prefix size names = Some l -> List.length values = size ->
  List.length l = size /\ combine l values = labelled num prefix names values.
Proof.
  unfold addEntries, labelled, addEntries_num. intros E L. destruct names as [|n names].
  - injection E as <-. rewrite map_length, seq_length, L, map_map. split; reflexivity.
  - destruct (Nat.eqb_spec (List.length (n :: names)) size) as [X|X]; [|discriminate]. injection E as <-.
    split; [cbn; rewrite map_length; exact X|reflexivity].
Qed.

Theorem C72_table : forall num nx np ny nz (o : onames) (h : shown) entries,
  table_entries num nx np ny nz o = Some entries ->
  List.length (h_first h) = 6 -> List.length (h_x h) = nx -> List.length (h_p h) = np -> List.length (h_w h) = ny + nz ->
  List.length (h_s h) = nx -> List.length (h_ex h) = nx -> List.length (h_ep h) = np -> List.length (h_ew h) = ny + nz ->
  let values := table_values num ny nz o h in
  List.length entries = List.length values /\
  combine entries values =
    combine ["Iteration"; "f"; "Error"; "||ex||max"; "||ep||max"; "||ew||max"]%string (h_first h) ++
    labelled num "x" (xnames o) (h_x h) ++ labelled num "p" (pnames o) (h_p h) ++
    labelled num "y" (ynames o) (firstn ny (h_w h)) ++ labelled num "z" (znames o) (skipn ny (h_w h)) ++
    labelled num "s" (xnames o) (h_s h) ++ labelled num "ex" (xnames o) (h_ex h) ++ labelled num "ep" (pnames o) (h_ep h) ++
    labelled num "ey" (ynames o) (firstn ny (h_ew h)) ++ labelled num "ez" (znames o) (skipn ny (h_ew h)) ++
    [("Basic Variables"%string, text (map (fun i => (match xnames o with [] => num i | _ => nth i (xnames o) EmptyString end) +++ " ") (h_jb h)))].
Proof.
  intros num nx np ny nz o h entries E L1 Lx Lp Lw Ls Lex Lep Lew values. unfold table_entries in E. cbn [concat_opt] in E.
  assert (Ly : List.length (firstn ny (h_w h)) = ny) by (rewrite firstn_length; lia).
  assert (Ley : List.length (firstn ny (h_ew h)) = ny) by (rewrite firstn_length; lia).
  assert (Lz : List.length (skipn ny (h_w h)) = nz) by (rewrite skipn_length; lia).
  assert (Lez : List.length (skipn ny (h_ew h)) = nz) by (rewrite skipn_length; lia).
  destruct (addEntries num "x" nx (xnames o)) as [ex1|] eqn:A1; [|discriminate].
  destruct (addEntries num "p" np (pnames o)) as [ep1|] eqn:A2; [|discriminate].
  destruct (addEntries num "y" ny (ynames o)) as [ey1|] eqn:A3; [|discriminate].
  destruct (addEntries num "z" nz (znames o)) as [ez1|] eqn:A4; [|discriminate].
  destruct (addEntries num "s" nx (xnames o)) as [es1|] eqn:A5; [|discriminate].
  destruct (addEntries num "ex" nx (xnames o)) as [ex2|] eqn:A6; [|discriminate].
  destruct (addEntries num "ep" np (pnames o)) as [ep2|] eqn:A7; [|discriminate].
  destruct (addEntries num "ey" ny (ynames o)) as [ey2|] eqn:A8; [|discriminate].
  destruct (addEntries num "ez" nz (znames o)) as [ez2|] eqn:A9; [|discriminate].
  cbn [option_map] in E. injection E as <-.
  change (?a :: ?b :: ?c :: ?d :: ?e :: ?f :: ?l) with ([a; b; c; d; e; f] ++ l).
  destruct (addEntries_spec _ _ _ _ _ _ A1 Lx) as [B1 C1]. destruct (addEntries_spec _ _ _ _ _ _ A2 Lp) as [B2 C2].
  destruct (addEntries_spec _ _ _ _ _ _ A3 Ly) as [B3 C3]. destruct (addEntries_spec _ _ _ _ _ _ A4 Lz) as [B4 C4].
  destruct (addEntries_spec _ _ _ _ _ _ A5 Ls) as [B5 C5]. destruct (addEntries_spec _ _ _ _ _ _ A6 Lex) as [B6 C6].
  destruct (addEntries_spec _ _ _ _ _ _ A7 Lep) as [B7 C7]. destruct (addEntries_spec _ _ _ _ _ _ A8 Ley) as [B8 C8].
  destruct (addEntries_spec _ _ _ _ _ _ A9 Lez) as [B9 C9].
  unfold values, table_values, basic_text.
  replace (List.length (h_w h) - nz) with ny by lia. replace (List.length (h_ew h) - nz) with ny by lia.
  split.
  - rewrite !app_length, L1, B1, B2, B3, B4, B5, B6, B7, B8, B9, Lx, Lp, Ls, Lex, Lep, Ly, Lz, Ley, Lez. reflexivity.
  - rewrite combine_app by (symmetry; exact L1). rewrite !combine_app by congruence.
    rewrite C1, C2, C3, C4, C5, C6, C7, C8, C9. repeat f_equal.
    destruct (xnames o); reflexivity.
Qed.
Print Assumptions C72_table.

Definition num72 (i : nat) : string := String (ascii_of_nat (48 + i)) EmptyString.
Example C72_case : exists entries, table_entries num72 2 1 1 0 (ONames ["H2O"; "CO2"]%string [] [] []) = Some entries /\ List.length entries = 17.
Proof. eexists. split; reflexivity. Qed.

(** A list of names of the wrong length is refused. *)
Theorem C72_wrong_size : forall num nx np ny nz (o : onames),
  table_entries num nx np ny nz o = None <->
  (xnames o <> [] /\ List.length (xnames o) <> nx) \/ (pnames o <> [] /\ List.length (pnames o) <> np) \/
  (ynames o <> [] /\ List.length (ynames o) <> ny) \/ (znames o <> [] /\ List.length (znames o) <> nz).
Proof.
  intros num nx np ny nz o.
  assert (X : forall prefix n (l : list string), l <> [] /\ List.length l <> n <-> addEntries num prefix n l = None).
  { intros prefix n l. unfold addEntries. destruct l as [|a l].
    - split; [intros [H _]; congruence|discriminate].
    - destruct (Nat.eqb_spec (List.length (a :: l)) n) as [E|E]; split; try discriminate; try reflexivity.
      + intros [_ H]. contradiction.
      + intros _. split; [discriminate|exact E]. }
  unfold table_entries. cbn [concat_opt].
  rewrite (X "x"%string), (X "p"%string), (X "y"%string), (X "z"%string).
  assert (Y : forall q q' n l, addEntries num q n l = None <-> addEntries num q' n l = None) by (intros; rewrite <- !X; reflexivity).
  destruct (addEntries num "x" nx (xnames o)) eqn:A1; [|cbn; tauto].
  destruct (addEntries num "p" np (pnames o)) eqn:A2; [|cbn; tauto].
  destruct (addEntries num "y" ny (ynames o)) eqn:A3; [|cbn; tauto].
  destruct (addEntries num "z" nz (znames o)) eqn:A4; [|cbn; tauto].
  destruct (addEntries num "s" nx (xnames o)) eqn:A5; [|apply (Y _ "x"%string) in A5; congruence].
  destruct (addEntries num "ex" nx (xnames o)) eqn:A6; [|apply (Y _ "x"%string) in A6; congruence].
  destruct (addEntries num "ep" np (pnames o)) eqn:A7; [|apply (Y _ "p"%string) in A7; congruence].
  destruct (addEntries num "ey" ny (ynames o)) eqn:A8; [|apply (Y _ "y"%string) in A8; congruence].
  destruct (addEntries num "ez" nz (znames o)) eqn:A9; [|apply (Y _ "z"%string) in A9; congruence].
  cbn. split; [discriminate|]. intuition discriminate.
Qed.
Print Assumptions C72_wrong_size.
