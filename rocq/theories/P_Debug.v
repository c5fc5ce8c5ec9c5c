(** Property theorems C99: a debug build. *)
From Coq Require Import List Arith Bool ZArith Reals Lia Permutation.
From Coq Require Import Floats.SpecFloat.
From mathcomp Require Import ssreflect ssrbool eqtype fintype ssralg ssrnum.
From Verif Require Import Num Num_facts Loop_model Loop_spec Loop_proofs Index_model Index_spec Index_proofs P_Loop
  Debug_model Debug_proofs Echelon_model DebugE_model DebugE_proofs.
Import ListNotations.
Local Open Scope nat_scope.

(** What C99 supposes of the problem: at least one variable and one linear constraint, b of
    that size, bounds of the right sizes with lower <= upper. *)
Definition asserted_problem {T} {N : Num T} (d : dims) (B : bounds T) : Prop :=
  (0 < d_nx d) /\ (0 < d_ny d) /\ d_b d = d_ny d /\ good_bounds (d_nx d) (d_np d) B.

(** What it supposes of the evaluation, of the linear solver and of the transformation: each
    evaluation leaves at least one basic variable, the basic variables are different numbers
    below nx, and the vectors have the right sizes. *)
Definition asserted_calls {T} {N : Num T} {W} (d : dims) (fupdate : W -> uvec T -> W) (newton : W -> W * uvec T)
    (phi : option (W -> list T -> list T -> W * bool * list T)) (basic : W -> list nat) : Prop :=
  (forall w u, sized (d_nx d) (d_np d) (d_nw d) u ->
     let jb := basic (fupdate w u) in jb <> [] /\ NoDup jb /\ Forall (fun j => (j < d_nx d)) jb) /\
  (forall w, sized (d_nx d) (d_np d) (d_nw d) (snd (newton w))) /\
  (forall ph w xo x, phi = Some ph -> length x = d_nx d -> length (snd (ph w xo x)) = d_nx d).

(** no entry of x and p is NaN *)
Definition all_numbers {T} {N : Num T} (u : uvec T) : Prop := Forall (fun t => nnan t = false) (ux u ++ up u).

(** ** C99.  For such a problem a debug build does the same as a release build, unless an
    iterate before the last one has a NaN among x and p; then it aborts. *)
Theorem C99_same_partial : forall (T : Type) (N : Num T) (NT : NumTot T) part (W : Type) fupdate ferror newton phi check basic
    (d : dims) (B : bounds T) o fuel (w : W) hist u r s,
  partition_contract part -> asserted_problem d B -> asserted_calls d fupdate newton phi basic ->
  sized (d_nx d) (d_np d) (d_nw d) u ->
  solve W fupdate ferror newton phi check fuel B o w hist u = Some (r, s) ->
  let debug := solve_d part W fupdate ferror newton phi check basic d fuel B o w hist u in
  (Forall all_numbers (tl (s_iterates s)) -> debug = Some (Done (r, s))) /\
  (Exists (fun v => ~ all_numbers v) (tl (s_iterates s)) -> debug = Some Aborted).
Proof.
  intros T N NT part W fupdate ferror newton phi check basic d B o fuel w hist u r s PC (A1 & A2 & A3 & A4) (C1 & C2 & C3) Z E.
  cbn zeta. rewrite (solve_ok part PC W fupdate ferror newton phi check basic d B A4 A1 A2 A3 C1 C2 C3 o fuel w hist u r s Z E).
  assert (NU : forall v : uvec T, number v = true <-> all_numbers v).
  { intros v. unfold number, all_numbers. rewrite forallb_forall Forall_forall.
    split; intros H t I; specialize (H t I); destruct (nnan t); [discriminate H|reflexivity|discriminate H|reflexivity]. }
  split.
  - intros H. assert (F : forallb number (tl (s_iterates s)) = true); [|rewrite F; reflexivity].
    apply forallb_forall. intros v I. apply NU. rewrite -> Forall_forall in H. apply H. exact I.
  - intros H. destruct (forallb number (tl (s_iterates s))) eqn:F; [|reflexivity]. exfalso.
    rewrite -> forallb_forall in F. apply Exists_exists in H. destruct H as (v & I & H). apply H, NU, F, I.
Qed.
Print Assumptions C99_same_partial.

(** In exact arithmetic there is no NaN: both builds always agree. *)
Theorem C99_exact_partial : forall part (W : Type) fupdate ferror newton phi check basic
    (d : dims) (B : bounds R) o fuel (w : W) hist u,
  partition_contract part -> asserted_problem d B -> asserted_calls d fupdate newton phi basic ->
  sized (d_nx d) (d_np d) (d_nw d) u -> (o_maxiters o < fuel) ->
  exists r s, solve W fupdate ferror newton phi check fuel B o w hist u = Some (r, s) /\
    solve_d part W fupdate ferror newton phi check basic d fuel B o w hist u = Some (Done (r, s)).
Proof.
  intros part W fupdate ferror newton phi check basic d B o fuel w hist u PC AP AC Z L.
  destruct (C48_terminates_partial R _ W fupdate ferror newton phi check B o fuel w hist u L) as (r & s & E & _).
  exists r, s. split; [exact E|].
  destruct (C99_same_partial R _ _ part W fupdate ferror newton phi check basic d B o fuel w hist u r s PC AP AC Z E) as [G _].
  apply G. apply Forall_forall. intros v _. apply Forall_forall. intros t _. reflexivity.
Qed.
Print Assumptions C99_exact_partial.

(** ** Refuted: without linear constraints a debug build aborts in every call of solve that
    the release build performs, whatever the variables, the nonlinear constraints, the
    options and the starting point. *)
Theorem C99_no_linear_constraint_refuted : forall (T : Type) (N : Num T) part (W : Type) fupdate ferror newton phi check basic
    (d : dims) (B : bounds T) o fuel (w : W) hist u,
  d_ny d = 0 -> (o_maxiters o < fuel) ->
  solve_d part W fupdate ferror newton phi check basic d fuel B o w hist u = Some Aborted /\
  exists r s, solve W fupdate ferror newton phi check fuel B o w hist u = Some (r, s).
Proof.
  intros T N part W fupdate ferror newton phi check basic d B o fuel w hist u E L. split.
  - unfold solve_d, initialize_d, update_d, rows_init. rewrite E.
    destruct (bound_asserts d B && size_asserts d u); [|reflexivity]. cbn [assert_].
    destruct (_ && _); [|reflexivity]. cbn [assert_]. destruct (negb _); reflexivity.
  - destruct (C48_terminates_partial T N W fupdate ferror newton phi check B o fuel w hist u L) as (r & s & H & _). exists r, s. exact H.
Qed.
Print Assumptions C99_no_linear_constraint_refuted.

(** ** Refuted: the same when no variable is basic at the starting point (the constraint
    matrix is zero). *)
Theorem C99_no_basic_variable_refuted : forall (T : Type) (N : Num T) part (W : Type) fupdate ferror newton phi check basic
    (d : dims) (B : bounds T) o fuel (w : W) hist u,
  (0 < d_nx d) -> basic (fupdate w (clampu B u)) = [] -> (o_maxiters o < fuel) ->
  solve_d part W fupdate ferror newton phi check basic d fuel B o w hist u = Some Aborted /\
  exists r s, solve W fupdate ferror newton phi check fuel B o w hist u = Some (r, s).
Proof.
  intros T N part W fupdate ferror newton phi check basic d B o fuel w hist u H0 E L. split.
  - unfold solve_d, initialize_d, update_d. cbn [update s_w]. rewrite E (assert_76_empty part _ H0).
    destruct (bound_asserts d B && size_asserts d u); [|reflexivity]. cbn [assert_].
    destruct (_ && _); [|reflexivity]. cbn [assert_]. destruct (negb _); [|reflexivity]. cbn [assert_]. destruct (negb _); reflexivity.
  - destruct (C48_terminates_partial T N W fupdate ferror newton phi check B o fuel w hist u L) as (r & s & H & _). exists r, s. exact H.
Qed.
Print Assumptions C99_no_basic_variable_refuted.

(** A run in binary64 of a problem with one variable in [0,1] and one linear constraint; the
    world is the list of errors to come and the Newton direction is always [v]. *)
Definition d1 : dims := Dims 1 0 1 0 1.
Definition u99 : uvec spec_float := UVec [z64] [] [z64].
Definition newton99 (v : spec_float) (w : list spec_float) := (w, UVec [v] [] [v]).
Definition accept99 := Some (fun (w : list spec_float) (xo x : list spec_float) => (w, true, x)).
Definition run99 v := solve (list spec_float) toy_update toy_error (newton99 v) accept99 None 100 B1 (Options 5 (nofZ 1) false)
  (z64 :: nofZ 3 :: nofZ 2 :: nofZ 2 :: nofZ 1 :: [z64]) [] u99.
Definition run99_d v := solve_d std_stable_partition (list spec_float) toy_update toy_error (newton99 v) accept99 None (fun _ => [0%nat]) d1 100 B1
  (Options 5 (nofZ 1) false) (z64 :: nofZ 3 :: nofZ 2 :: nofZ 2 :: nofZ 1 :: [z64]) [] u99.

Lemma asserted99 v : asserted_problem d1 B1 /\ asserted_calls d1 toy_update (newton99 v) accept99 (fun _ => [0%nat]) /\
  sized (d_nx d1) (d_np d1) (d_nw d1) u99.
Proof.
  split; [|split].
  - split; [|split; [|split]]; [cbn; lia|cbn; lia|reflexivity|exact B1_good].
  - split; [|split].
    + intros w u _. split; [discriminate|]. split; [repeat constructor; intros []|]. repeat constructor.
    + intros w. repeat split.
    + intros ph w xo x H L. injection H as <-. exact L.
  - repeat split.
Qed.

Lemma std_stable_contract : partition_contract std_stable_partition.
Proof.
  intros p l out k H. injection H as <- <-.
  assert (E1 : firstn (length (List.filter p l)) (List.filter p l ++ List.filter (fun i => negb (p i)) l) = List.filter p l)
    by (rewrite List.firstn_app Nat.sub_diag List.firstn_all List.firstn_O List.app_nil_r; reflexivity).
  assert (E2 : skipn (length (List.filter p l)) (List.filter p l ++ List.filter (fun i => negb (p i)) l) = List.filter (fun i => negb (p i)) l)
    by (rewrite List.skipn_app Nat.sub_diag List.skipn_all; reflexivity).
  rewrite E1 E2. split; [|split; [|split]].
  - clear E1 E2. induction l as [|x l IH]; [constructor|]. cbn [List.filter]. destruct (p x); cbn [negb].
    + apply perm_skip. exact IH.
    + apply Permutation_cons_app. exact IH.
  - rewrite List.app_length. apply Nat.le_add_r.
  - intros i H. apply List.filter_In in H. apply H.
  - intros i H. apply List.filter_In in H. destruct H as [_ H]. destruct (p i); [discriminate H|reflexivity].
Qed.

Example C99_case : exists r s, run99 (nofZ 10) = Some (r, s) /\ r = Result true 2 z64 /\ length (s_iterates s) = 3 /\
  run99_d (nofZ 10) = Some (Done (r, s)).
Proof.
  destruct (asserted99 (nofZ 10)) as (A1 & A2 & A3).
  unfold run99, run99_d. destruct (solve _ _ _ _ _ _ _ _ _ _ _ _) as [[r s]|] eqn:E; [|exfalso; vm_compute in E; discriminate E].
  exists r, s. split; [reflexivity|].
  destruct (C99_same_partial spec_float _ _ std_stable_partition _ _ _ _ _ _ _ d1 _ _ _ _ _ _ _ _ std_stable_contract A1 A2 A3 E) as [G _].
  vm_compute in E. injection E as <- <-. split; [reflexivity|]. split; [reflexivity|].
  apply G. repeat constructor.
Qed.

(** ** Refuted: when the linear solver returns a NaN (as it does for a singular matrix), a
    release build goes on and reports a result, a debug build aborts. *)
Theorem C99_nan_refuted : exists r s, run99 S754_nan = Some (r, s) /\ run99_d S754_nan = Some Aborted.
Proof.
  destruct (asserted99 S754_nan) as (A1 & A2 & A3).
  unfold run99, run99_d. destruct (solve _ _ _ _ _ _ _ _ _ _ _ _) as [[r s]|] eqn:E; [|exfalso; vm_compute in E; discriminate E].
  exists r, s. split; [reflexivity|].
  destruct (C99_same_partial spec_float _ _ std_stable_partition _ _ _ _ _ _ _ d1 _ _ _ _ _ _ _ _ std_stable_contract A1 A2 A3 E) as [_ G].
  apply G. vm_compute in E. injection E as <- <-. apply Exists_exists. eexists. split; [left; reflexivity|].
  intros H. inversion H. discriminate.
Qed.
Print Assumptions C99_nan_refuted.

(** ** The swaps of basic and non-basic variables: in exact arithmetic the pivot is above
    the threshold whenever an update with priority weights swaps. *)
Theorem C99_pivots : forall (F : realFieldType) (nb md nn : nat) (th : F) w (e : ech F nb md nn) Kb Kn,
  ech_weights_d th w e Kb Kn = Some (ech_weights th w e Kb Kn).
Proof. intros F nb md nn th w e Kb Kn. unfold ech_weights_d. rewrite swaps_d. reflexivity. Qed.
Print Assumptions C99_pivots.
