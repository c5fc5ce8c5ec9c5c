(** Property theorems C95: what an error below the tolerance means in double precision. *)
From Coq Require Import Reals ZArith List Bool Lia Lra Permutation.
From Coq Require Import Floats.SpecFloat.
From Flocq Require Import Core.
From Flocq Require BinarySingleNaN.
From Verif Require Import Num Loop_model P_Loop Round_spec Float_proofs FSum_model FSum_spec FSum_proofs FResidual_model FResidual_spec FResidual_proofs.
Import ListNotations.
Local Open Scope R_scope.

(** ** If the computed error is below the tolerance then, whatever the order in which the sums were
    evaluated and whether or not multiplications and additions were fused,
    - the exact entry of g + W^T w of each variable that is neither unstable nor a basic variable
      on one of its bounds is below the tolerance, up to a rounding term,
    - the entries of v are below the tolerance,
    - each row of R times the exact constraint residuals (b - Ax x - Ap p; -h) is below the
      tolerance, up to a rounding term and the defect of the computed canonical form. *)
Definition small_residuals (d : fdata) (tol : spec_float) : Prop :=
  (forall i, (i < fnx d)%nat -> ~ In i (fju d) ->
     (In i (fjbs d) -> xof (fx d i) <> xof (fxl d i) /\ xof (fx d i) <> xof (fxu d i)) ->
     Rabs (gradL d i) <= V tol + gam (fnw d + 1) * gradL_mag d i + tiny (fnw d + 1)) /\
  (forall k, (k < fnp d)%nat -> Rabs (V (fv d k)) <= V tol) /\
  (forall i, (i < fnbs d)%nat ->
     Rabs (Rcres d i) <= V tol + gam (terms d) * canon_mag d i + tiny (terms d) * (1 + Rmag d i) + defect d i).

Theorem C95_success : forall d r tol, isfin tol -> numbers d -> partitioned d -> computed d r -> no_nan d r -> no_overflow d r ->
  nltb (computed_error d r) tol = true -> small_residuals d tol.
Proof.
  intros d r tol Ft Nb Pt C NN NO E. split; [|split].
  - intros i Hi Hu Hb. destruct (ax_small d r tol Ft Nb C NN E i Hi Hu Hb) as [Fx Sx].
    destruct C as (C1 & _). destruct (C1 i Hi) as [_ Q]. destruct (Q Hu) as (s & Es & Ex). rewrite Ex in Fx, Sx. rewrite V_opp, Rabs_Ropp in Sx.
    assert (Fg : forall i, isfin (fg d i)) by apply Nb. assert (FW : forall l j, isfin (fWx d l j)) by apply Nb. assert (Fw : forall l, isfin (fw d l)) by apply Nb.
    destruct (approx_eval (V (fg d i) :: map (fun l => V (fWx d l i) * V (fw d l)) (seq 0 (fnw d))) s) as (A & _).
    { cbn [map]. rewrite map_map, <- (xof_fin _ (Fg i)).
      rewrite (map_ext (fun l => XF (V (fWx d l i) * V (fw d l))) (fun l => prod (fWx d l i) (fw d l))); [exact Es|].
      intros l. symmetry. apply prod_fin; auto. }
    { now apply fin_opp. }
    cbn [length] in A. rewrite map_length, seq_length in A. rewrite <- tiny_eq in A. rewrite Ls_cons in A.
    unfold Labs in A. cbn [map] in A. rewrite Ls_cons, map_map in A.
    fold (sumn (fnw d) (fun l => V (fWx d l i) * V (fw d l))) (sumn (fnw d) (fun l => Rabs (V (fWx d l i) * V (fw d l)))) in A.
    fold (gradL d i) (gradL_mag d i) in A. rewrite Nat.add_1_r.
    replace (gradL d i) with (V s - (V s - gradL d i)) by ring. unfold Rminus at 1. eapply Rle_trans; [apply Rabs_triang|]. rewrite Rabs_Ropp. lra.
  - intros k Hk. left. exact (ap_small d r tol Ft Nb C NN E k Hk).
  - intros i Hi. assert (Hn : (fnbs d <= fnw d)%nat) by apply Pt.
    destruct (awbs_small d r tol Ft Nb C NN E i Hn Hi) as [Fw Sw].
    destruct (canon_ok d r Nb Pt C NO i Hi Fw) as (A & _). pose proof (defect_le d Pt i Hi) as D.
    rewrite tiny_eq. replace (INR (terms d) * Float_proofs.eta64 * (1 + gam (terms d)) * (1 + Rmag d i))
      with (INR (terms d) * Float_proofs.eta64 * (1 + Rmag d i) * (1 + gam (terms d))) by ring.
    assert (Rabs (can d i) <= Rabs (V (ra_wbs r i)) + Rabs (V (ra_wbs r i) - can d i)).
    { replace (can d i) with (V (ra_wbs r i) - (V (ra_wbs r i) - can d i)) at 1 by ring. unfold Rminus at 1.
      eapply Rle_trans; [apply Rabs_triang|]. rewrite Rabs_Ropp. lra. }
    lra.
Qed.
Print Assumptions C95_success.

(** The residuals of the constraints themselves, when R is a nonsingular matrix with inverse L. *)
Theorem C95_constraints : forall d tol (L : nat -> nat -> R), small_residuals d tol -> fnbs d = fnw d ->
  (forall l m, (l < fnw d)%nat -> (m < fnw d)%nat -> sumn (fnw d) (fun i => L l i * V (fR d i m)) = if Nat.eqb l m then 1 else 0) ->
  forall l, (l < fnw d)%nat -> Rabs (cres d l) <= sumn (fnw d) (fun i => Rabs (L l i) *
    (V tol + gam (terms d) * canon_mag d i + tiny (terms d) * (1 + Rmag d i) + defect d i)).
Proof.
  intros d tol L (_ & _ & H) Hn HL l Hl.
  assert (E : cres d l = sumn (fnw d) (fun i => L l i * Rcres d i)).
  { rewrite <- (Ls_pick (fnw d) l (cres d) Hl). unfold Rcres, sumn.
    rewrite (Ls_ext _ (fun m => Lsum (map (fun i => L l i * V (fR d i m) * cres d m) (seq 0 (fnw d))))).
    - rewrite (Ls_swap (fun m i => L l i * V (fR d i m) * cres d m)). apply Ls_ext. intros i _. rewrite <- Ls_scal. apply Ls_ext. intros m _. ring.
    - intros m Hm. apply in_seq in Hm. rewrite <- (HL l m) by lia. unfold sumn.
      rewrite (Ls_ext (fun i => L l i * V (fR d i m) * cres d m) (fun i => cres d m * (L l i * V (fR d i m)))) by (intros; ring). rewrite Ls_scal. ring. }
  rewrite E. unfold sumn. apply Ls_le_abs. intros i Hi. apply in_seq in Hi. rewrite Rabs_mult. apply Rmult_le_compat_l; [apply Rabs_pos|].
  apply H. lia.
Qed.
Print Assumptions C95_constraints.

(** The rounding terms: gam n is at most n * 2^-52. *)
Theorem C95_rounding : forall n, (Z.of_nat n <= 2 ^ 50)%Z -> 0 <= gam n <= INR n * bpow radix2 (-52) /\
  0 <= tiny n <= INR n * bpow radix2 (-1074).
Proof.
  intros n H. pose proof (gam_le n H) as G. pose proof (gam_pos n). split; [split; assumption|]. split; [apply tiny_pos|].
  rewrite tiny_eq. replace (bpow radix2 (-1074)) with (eta64 * 2) by (unfold eta64; change 2 with (bpow radix2 1); rewrite <- bpow_plus; reflexivity).
  rewrite <- Rmult_assoc. apply Rmult_le_compat_l; [apply Rmult_le_pos; [apply pos_INR|apply bpow_ge_0]|].
  assert (INR n * bpow radix2 (-52) <= bpow radix2 50 * bpow radix2 (-52)).
  { apply Rmult_le_compat_r; [apply bpow_ge_0|]. rewrite INR_IZR_INZ. change (bpow radix2 50) with (IZR (2 ^ 50)). now apply IZR_le. }
  rewrite <- bpow_plus in H1. change (50 + -52)%Z with (-2)%Z in H1. assert (bpow radix2 (-2) <= 1) by (change 1 with (bpow radix2 0); apply bpow_le; lia). lra.
Qed.
Print Assumptions C95_rounding.

(** ** Solver::solve in double precision: if it reports success, then the exact residuals at the
    final point are small. *)
Theorem C95_solve : forall (W : Type) fupdate ferror newton phi (B : bounds spec_float) o fuel (w : W) hist u r s
    (dat : W -> uvec spec_float -> fdata) (res : W -> uvec spec_float -> fresidual),
  isfin (o_tol o) -> (forall w u, computed (dat w u) (res w u)) -> (forall w u, ferror w u = computed_error (dat w u) (res w u)) ->
  solve W fupdate ferror newton phi None fuel B o w hist u = Some (r, s) -> r_succeeded r = true ->
  let d := dat (s_w s) (s_u s) in
  numbers d -> partitioned d -> no_nan d (res (s_w s) (s_u s)) -> no_overflow d (res (s_w s) (s_u s)) ->
  small_residuals d (o_tol o).
Proof.
  intros W fupdate ferror newton phi B o fuel w hist u r s dat res Ft C Er H S d Nb Pt NN NO.
  destruct (C49_success_sound spec_float _ W fupdate ferror newton phi None B o fuel w hist u r s H) as (_ & E & K).
  destruct (K S) as [K1|(c & K1 & _)]; [|discriminate]. rewrite E, Er in K1. exact (C95_success d (res (s_w s) (s_u s)) (o_tol o) Ft Nb Pt (C _ _) NN NO K1).
Qed.
Print Assumptions C95_solve.

(** Evaluating every sum from left to right is one of the possible evaluations. *)
Theorem C95_left_to_right : forall d, numbers d -> computed d (ltr d).
Proof. exact ltr_computed. Qed.
Print Assumptions C95_left_to_right.

(* ---------- cases ---------- *)
Definition D (m e : Z) : spec_float := binary_normalize prec64 emax64 m e false.
Definition dvec (l : list spec_float) (i : nat) : spec_float := nth i l nzero.
Definition dmat (l : list (list spec_float)) (i j : nat) : spec_float := nth j (nth i l []) nzero.
Definition finb (x : spec_float) : bool := match x with S754_infinity _ | S754_nan => false | _ => valid_binary 53 1024 x end.
Lemma finb_ok x : finb x = true -> isfin x.
Proof. destruct x; try discriminate; intros H; split; auto; reflexivity. Qed.
Lemma dvec_fin l : forallb finb l = true -> forall i, isfin (dvec l i).
Proof.
  intros H i. unfold dvec. destruct (nth_in_or_default i l nzero) as [I|E]; [|rewrite E; split; reflexivity].
  apply finb_ok. rewrite forallb_forall in H. auto.
Qed.
Lemma dmat_fin l : forallb (forallb finb) l = true -> forall i j, isfin (dmat l i j).
Proof.
  intros H i j. unfold dmat. destruct (nth_in_or_default j (nth i l []) nzero) as [I|E]; [|rewrite E; split; reflexivity].
  apply finb_ok. rewrite forallb_forall in H.
  destruct (nth_in_or_default i l []) as [I2|E]; [|rewrite E in I; destruct I].
  specialize (H _ I2). rewrite forallb_forall in H. auto.
Qed.
Definition pinf (_ : nat) : spec_float := S754_infinity false.
Definition minf (_ : nat) : spec_float := S754_infinity true.

(** three variables, the last one unstable, one parameter, one linear and one nonlinear constraint;
    b is off by 2^-40 *)
Definition ex : fdata := FData 3 1 1 1 2
  (dvec [D (-1) (-1); D (-3) (-2); D 100 0]) (dvec [nzero]) (dvec [nadd (D 13 (-1)) (D 1 (-40))]) (dvec [nzero])
  (dmat [[D 1 0; D 1 0; D 1 0]; [nzero; D 1 0; D 2 0]]) (dmat [[D 1 0]; [nzero]])
  (dvec [D 1 0; D 2 0; D 1 (-1)]) (dvec [D 3 0]) (dvec [D 1 (-1); D 1 (-2)]) minf pinf [0; 1]%nat [2]%nat
  (dmat [[D 1 0; D (-1) 0]; [nzero; D 1 0]]) (dmat []) (dmat [[D 1 0]; [nzero]]).
Ltac nums := repeat (split; [first [apply dvec_fin; vm_compute; reflexivity | apply dmat_fin; vm_compute; reflexivity]|]); split; intros i; reflexivity.
Example C95_case : let tol := D 1 (-30) in
  isfin tol /\ numbers ex /\ partitioned ex /\ computed ex (ltr ex) /\ no_nan ex (ltr ex) /\ no_overflow ex (ltr ex) /\
  nltb (computed_error ex (ltr ex)) tol = true /\ nltb nzero (computed_error ex (ltr ex)) = true.
Proof.
  cbv zeta. assert (Nb : numbers ex).
  { unfold numbers, ex. cbn [fg fv fb fh fWx fWp fx fp fw fR fS fSp fxl fxu]. nums. }
  split; [split; vm_compute; reflexivity|]. split; [exact Nb|].
  split; [split; [apply Permutation_refl|split; cbn; lia]|]. split; [now apply ltr_computed|].
  split; [split; intros i Hi; cbn in Hi; do 3 (destruct i as [|i]; [vm_compute; discriminate|]); lia|].
  split; [intros i Hi; cbn in Hi; do 2 (destruct i as [|i]; [apply finb_ok; vm_compute; reflexivity|]); lia|].
  split; vm_compute; reflexivity.
Qed.

(** its matrix R = [1 -1; 0 1] has the inverse [1 1; 0 1] *)
Example C95_constraints_case : fnbs ex = fnw ex /\ exists L : nat -> nat -> R,
  forall l m, (l < fnw ex)%nat -> (m < fnw ex)%nat -> sumn (fnw ex) (fun i => L l i * V (fR ex i m)) = if Nat.eqb l m then 1 else 0.
Proof.
  split; [reflexivity|]. exists (fun l i => if Nat.leb l i then 1 else 0).
  assert (E1 : fR ex 0 0 = S754_finite false 4503599627370496 (-52)) by (vm_compute; reflexivity).
  assert (E2 : fR ex 0 1 = S754_finite true 4503599627370496 (-52)) by (vm_compute; reflexivity).
  assert (E3 : fR ex 1 0 = S754_zero false) by (vm_compute; reflexivity).
  assert (E4 : fR ex 1 1 = S754_finite false 4503599627370496 (-52)) by (vm_compute; reflexivity).
  intros l m Hl Hm. unfold sumn. cbn [fnw fny fnz ex Nat.add] in *. cbn [seq map Lsum fold_right].
  destruct l as [|[|l]]; [| |lia]; (destruct m as [|[|m]]; [| |lia]); rewrite ?E1, ?E2, ?E3, ?E4; unfold V, BinarySingleNaN.SF2R, F2R;
    cbn [Fnum Fexp cond_Zopp Z.opp Nat.leb Nat.eqb]; change (bpow radix2 (-52)) with (/ 4503599627370496); field.
Qed.

(** ** Without the rounding terms the claim is false: the terms 2^53, 1 and -2^53 sum to 1, but in
    double precision, from left to right, to 0.  The error is zero and the solve succeeds for every
    positive tolerance. *)
Definition ex2 : fdata := FData 1 0 2 0 0
  (dvec [D 1 53]) (dvec []) (dvec []) (dvec []) (dmat [[D 1 0]; [D 1 0]]) (dmat []) (dvec []) (dvec []) (dvec [D 1 0; D (-1) 53])
  minf pinf [0]%nat [] (dmat []) (dmat []) (dmat []).
Theorem C95_cancellation_refuted : exists d r, numbers d /\ partitioned d /\ computed d r /\ no_nan d r /\ no_overflow d r /\
  (forall tol, isfin tol -> 0 < V tol -> nltb (computed_error d r) tol = true) /\
  fju d = [] /\ fjbs d = [] /\ gradL d 0 = 1.
Proof.
  exists ex2, (ltr ex2). assert (Nb : numbers ex2).
  { unfold numbers, ex2. cbn [fg fv fb fh fWx fWp fx fp fw fR fS fSp fxl fxu]. nums. }
  split; [exact Nb|].
  split; [split; [apply Permutation_refl|split; cbn; lia]|]. split; [now apply ltr_computed|].
  split; [split; intros i Hi; cbn in Hi; do 1 (destruct i as [|i]; [vm_compute; discriminate|]); lia|].
  split; [intros i Hi; cbn in Hi; lia|].
  split; [|split; [reflexivity|split; [reflexivity|]]].
  - intros tol Ft Ht. assert (E : computed_error ex2 (ltr ex2) = S754_zero false) by (vm_compute; reflexivity). rewrite E.
    rewrite xltb_of by (try apply Ft; reflexivity). rewrite (xof_fin _ Ft). cbn. unfold rltb. destruct (Rlt_dec _ _) as [|n]; [reflexivity|]. elim n. exact Ht.
  - unfold gradL, sumn, ex2. cbn [fg fWx fw fnw fny fnz Nat.add seq map Lsum fold_right].
    assert (E1 : dvec [D 1 53] 0 = S754_finite false 4503599627370496 1) by (vm_compute; reflexivity).
    assert (E2 : dmat [[D 1 0]; [D 1 0]] 0 0 = S754_finite false 4503599627370496 (-52)) by (vm_compute; reflexivity).
    assert (E3 : dmat [[D 1 0]; [D 1 0]] 1 0 = S754_finite false 4503599627370496 (-52)) by (vm_compute; reflexivity).
    assert (E4 : dvec [D 1 0; D (-1) 53] 0 = S754_finite false 4503599627370496 (-52)) by (vm_compute; reflexivity).
    assert (E5 : dvec [D 1 0; D (-1) 53] 1 = S754_finite true 4503599627370496 1) by (vm_compute; reflexivity).
    rewrite E1, E2, E3, E4, E5. unfold V, BinarySingleNaN.SF2R, F2R. cbn [Fnum Fexp cond_Zopp Z.opp]. change (bpow radix2 1) with 2.
    change (bpow radix2 (-52)) with (/ 4503599627370496). field.
Qed.
Print Assumptions C95_cancellation_refuted.

(** ** An overflow of the reference value hides a residual: A x = b with R = [1 1], W = [1; 0] and
    b = (1.5 * 2^1023, -0.75 * 2^1023) leaves the residual 0.75 * 2^1023 at x = 0.  The product with
    R is computed exactly, but |R| |b| overflows, so that the product is set to zero and the error is
    zero. *)
Definition ex3 : fdata := FData 1 0 2 0 1
  (dvec [nzero]) (dvec []) (dvec [D 3 1022; D (-3) 1021]) (dvec []) (dmat [[D 1 0]; [nzero]]) (dmat []) (dvec [nzero]) (dvec []) (dvec [nzero; nzero])
  minf pinf [0]%nat [] (dmat [[D 1 0; D 1 0]]) (dmat []) (dmat []).
Theorem C95_overflow_refuted : exists d r, numbers d /\ partitioned d /\ computed d r /\ no_nan d r /\
  (forall tol, isfin tol -> 0 < V tol -> nltb (computed_error d r) tol = true) /\
  fnbs d = 1%nat /\ defect d 0 = 0 /\ Rcres d 0 = 3 * bpow radix2 1021.
Proof.
  exists ex3, (ltr ex3). assert (Nb : numbers ex3).
  { unfold numbers, ex3. cbn [fg fv fb fh fWx fWp fx fp fw fR fS fSp fxl fxu]. nums. }
  split; [exact Nb|].
  split; [split; [apply Permutation_refl|split; cbn; lia]|]. split; [now apply ltr_computed|].
  split; [split; intros i Hi; cbn in Hi; do 1 (destruct i as [|i]; [vm_compute; discriminate|]); lia|].
  assert (Z0 : V (dvec [nzero] 0) = 0) by reflexivity.
  split; [|split; [reflexivity|split]].
  - intros tol Ft Ht. assert (E : computed_error ex3 (ltr ex3) = S754_zero false) by (vm_compute; reflexivity). rewrite E.
    rewrite xltb_of by (try apply Ft; reflexivity). rewrite (xof_fin _ Ft). cbn. unfold rltb. destruct (Rlt_dec _ _) as [|n]; [reflexivity|]. elim n. exact Ht.
  - unfold defect, sumn, fnns, fjbs, fjns, ex3. cbn [fx fnbs fnp fjs length Nat.sub seq map firstn skipn nth Lsum fold_right]. rewrite Z0, Rabs_R0. ring.
  - unfold Rcres, cres, sumn, ex3. cbn [fnw fny fnz fnx fnp fb fx fWx fR Nat.add Nat.ltb Nat.leb seq map Lsum fold_right]. rewrite Z0.
    assert (E1 : dvec [D 3 1022; D (-3) 1021] 0 = S754_finite false 6755399441055744 971) by (vm_compute; reflexivity).
    assert (E2 : dvec [D 3 1022; D (-3) 1021] 1 = S754_finite true 6755399441055744 970) by (vm_compute; reflexivity).
    assert (E3 : dmat [[D 1 0; D 1 0]] 0 0 = S754_finite false 4503599627370496 (-52)) by (vm_compute; reflexivity).
    assert (E4 : dmat [[D 1 0; D 1 0]] 0 1 = S754_finite false 4503599627370496 (-52)) by (vm_compute; reflexivity).
    rewrite E1, E2, E3, E4. unfold V, BinarySingleNaN.SF2R, F2R. cbn [Fnum Fexp cond_Zopp Z.opp].
    replace (bpow radix2 971) with (bpow radix2 970 * 2) by (change 2 with (bpow radix2 1); rewrite <- bpow_plus; reflexivity).
    replace (bpow radix2 1021) with (bpow radix2 970 * bpow radix2 51) by (rewrite <- bpow_plus; reflexivity).
    change (bpow radix2 (-52)) with (/ 4503599627370496). change (bpow radix2 51) with 2251799813685248. field.
Qed.
Print Assumptions C95_overflow_refuted.
