(** Property theorems C109: sensitivities with respect to combined parameters and other units. *)
From Coq Require Import List PeanoNat Permutation Reals.
From mathcomp Require Import all_ssreflect all_fingroup all_algebra.
From Verif Require Import Num Index_model Index_spec Index_proofs Num_rf R_rf LU_model LU_spec LU_proofs Linear_model Linear_spec Linear_proofs Canonical_model Canonical_spec Canonical_proofs.
From Verif Require Import ResErr_model Residual_model Residual_spec Residual_proofs Sens_model Sens_spec Sens_proofs SensLin_spec SensLin_proofs P_Linear P_Residual P_Sens.
From Verif Require Import Loop_model Wrapper_model End_model SensW_model.
Set Implicit Arguments.
Unset Strict Implicit.
Unset Printing Implicit Defensive.
Local Open Scope ring_scope.
Import Order.TTheory GRing.Theory Num.Theory.
Local Notation "l ++ l'" := (List.app l l') : seq_scope.

(** ** C109.  The chain rule: a parameter that changes two others at the rates a and b has the sensitivities a*t1 + b*t2, if no
    equation is discarded in the three calculations ([solvable]).  Nothing depends on what the memory (r0, s0) held before.
    Missing: calculations in which LU::solve discards an equation (C109_units_refuted). *)
Theorem C109_linear_partial : forall (F : realFieldType) part (nx np ny nz : nat) (d : pdata F) (e : evals F) Wx Wp q u r (eps : F) f a k1 b k2 r1 s1 r2 s2 r0 s0,
  partition_contract part -> echelon_of nx np (ny + nz) e Wx Wp q ->
  rf_update part nx np ny nz d e Wx Wp q u = Some r ->
  solvable (r := r) (np := np) ny nz eps k1 r1 f -> solvable (r := r) (np := np) ny nz eps k2 r2 f -> solvable (r := r) (np := np) ny nz eps (combine a k1 b k2) r0 f ->
  exists t1 t2 t, [/\ sens_solve (r := r) (np := np) ny nz eps k1 f r1 s1 = Some t1, sens_solve (r := r) (np := np) ny nz eps k2 f r2 s2 = Some t2,
    sens_solve (r := r) (np := np) ny nz eps (combine a k1 b k2) f r0 s0 = Some t & combined nx np (ny + nz) a t1 b t2 t].
Proof.
move=> F part nx np ny nz d e Wx Wp q u r eps f a k1 b k2 r1 s1 r2 s2 r0 s0 HC HE HR [e0 N [fp1 ok1]] [_ _ [_ ok2]] [_ _ [_ ok0]].
set J := canon_cmat np (rM r) (rc r) in N fp1 ok1 ok2 ok0.
have G k r0' s0' : resolved eps f (null_rhs (null_decompose J) (rhs_of np ny nz r k r0')) ->
  exists t v, [/\ sens_solve (r := r) (np := np) ny nz eps k f r0' s0' = Some t, nullspace eps f J (rhs_of np ny nz r k r0') = Some v & canonical_eqs J (rhs_of np ny nz r k r0') v].
  move=> R; have [v E Q] := nullspace_solves e0 fp1 (nonsingular_null N) R.
  rewrite /sens_solve /ls_solve -/J -/(rhs_of np ny nz r k r0') E; by eexists; exists v; split.
have [t1 [v1 [E1 V1 Q1]]] := G k1 r1 s1 ok1; have [t2 [v2 [E2 V2 Q2]]] := G k2 r2 s2 ok2; have [t [v [E V Q]]] := G _ r0 s0 ok0.
exists t1, t2, t; split=> //.
have [w1 [W1 X1 P1 L1 S1]] := sens_shape HC HE HR E1; have [w2 [W2 X2 P2 L2 S2]] := sens_shape HC HE HR E2; have [w [W0 X0 P0 L0 S0]] := sens_shape HC HE HR E.
move: W1; rewrite -/J V1 => -[EW1]; move: W2; rewrite -/J V2 => -[EW2]; move: W0; rewrite -/J V => -[EW].
have EC : v = ccomb a v1 b v2.
  by apply: (eqs_unique N Q); rewrite (rhs_comb HC HE HR a k1 b k2 r0 r1 r2); apply: eqs_comb.
rewrite -{}EW {w} EC in X0 P0 L0; rewrite -{}EW1 {w1} in X1 P1 L1; rewrite -{}EW2 {w2} in X2 P2 L2.
have L i : sw t i = a * sw t1 i + b * sw t2 i.
  rewrite L0 L1 L2 !big_distrr -big_split /=; apply: eq_bigr => l _.
  by rewrite !mxE mulrDr !(mulrCA a) !(mulrCA b).
split=> // i il.
- rewrite X0 // X1 // X2 //; case: ifP => _; first by rewrite !mulr0 addr0.
  by case: posn => [j|]; [rewrite /= rawcol_comb | rewrite !mulr0 addr0].
- by rewrite P0 P1 P2 /= rawcol_comb.
- rewrite S0 // S1 // S2 //; case: ifP => _; last by rewrite !mulr0 addr0.
  rewrite /= !mulrDr addrACA !big_distrr -big_split /=; congr (_ + _); apply: eq_bigr => l _.
  by rewrite L mulrDr !(mulrCA a) !(mulrCA b).
Qed.
Print Assumptions C109_linear_partial.

(** A parameter on which nothing depends has zero sensitivities, whenever a result is produced. *)
Theorem C109_irrelevant : forall (F : realFieldType) part (nx np ny nz : nat) (d : pdata F) (e : evals F) Wx Wp q u r (eps : F) f k r0 s0 t,
  partition_contract part -> echelon_of nx np (ny + nz) e Wx Wp q ->
  rf_update part nx np ny nz d e Wx Wp q u = Some r -> irrelevant k ->
  sens_solve (r := r) (np := np) ny nz eps k f r0 s0 = Some t ->
  [/\ forall i, (i < nx)%N -> sx t i = 0, forall i, sp t i = 0, forall i, sw t i = 0 & forall i, (i < nx)%N -> ss t i = 0].
Proof.
move=> F part nx np ny nz d e Wx Wp q u r eps f k r0 s0 t HC HE HR I E.
have [v [V X P L S]] := sens_shape HC HE HR E.
have Z := rhs_irrelevant HC HE HR r0 I.
move: V; rewrite /nullspace Z null_rhs0; case EL: (lu_solve eps f 0) => [x|//]; rewrite /omap /obind /oapp => -[EV].
rewrite -EV (lu_zero EL) null_finish0 in X P L.
have W i : sw t i = 0 by rewrite L big1 // => l _; rewrite mxE mulr0.
split=> //.
- by move=> i il; rewrite X //; case: ifP => // _; case: posn => [j|//]; rewrite rawcol0.
- by move=> i; rewrite P rawcol0.
- move=> i il; rewrite S //; case: ifP => // _; have [-> _ _ _] := I i.
  by rewrite add0r big1 // => l _; rewrite W mulr0.
Qed.
Print Assumptions C109_irrelevant.

(** Large units: for every parameter of every problem in which LU::solve has more than one equation there is a number a0 such that
    the parameter in units at least a0 times as large has zero sensitivities of the non-basic variables and of p. *)
Theorem C109_large_zero : forall (F : realFieldType) part (nx np ny nz : nat) (d : pdata F) (e : evals F) Wx Wp q u r (eps : F) f k r0 s0,
  partition_contract part -> echelon_of nx np (ny + nz) e Wx Wp q ->
  rf_update part nx np ny nz d e Wx Wp q u = Some r -> 0 < eps ->
  (knbe (rc r) + ((knne (rc r) + knni (rc r)) + (np + knbe (rc r))) != 1)%N ->
  exists2 a0, 0 < a0 & forall a, a0 <= `|a| -> exists t,
    [/\ sens_solve (r := r) (np := np) ny nz eps (times a k) f r0 s0 = Some t, forall i, In i (qjn q) -> sx t i = 0 & forall l, sp t l = 0].
Proof.
move=> F part nx np ny nz d e Wx Wp q u r eps f k r0 s0 HC HE HR e0 n1.
have [_ CV _] := rf_update_view HC HE HR.
set J := canon_cmat np (rM r) (rc r).
have [a0 A0 H] := lu_large f (null_rhs (null_decompose J) (rhs_of np ny nz r k r0)) e0 n1.
exists a0 => // a /H {H} E.
have EK : rhs_of np ny nz r (times a k) r0 = ccomb a (rhs_of np ny nz r k r0) 0 (rhs_of np ny nz r k r0).
  rewrite -(rhs_comb HC HE HR a k 0 k r0 r0 r0) /rhs_of /canon_rhs; congr CVec; apply/matrixP => i j; rewrite !mxE /=.
  - by rewrite mul0r addr0.
  - by rewrite mul0r addr0.
  - by apply: eq_bigr => l _; rewrite !mul0r !addr0.
rewrite /sens_solve /ls_solve -/J -/(rhs_of np ny nz r (times a k) r0) /nullspace EK null_rhsZ E.
eexists; split; first by reflexivity.
- move=> i; move/(Permutation_in _ (cv_nonbasic CV)) => i_n; cbn [sx master_result mx]; case: ifP => // _.
  case PU: (posn i (kju (rc r))) => [j|].
    have : In i (kju (rc r)) by move: PU; elim: (kju (rc r)) j => //= x l IH j; case: (Nat.eqb_spec i x) => [->|_]; [left | case P: (posn i l) => [j'|//] _; right; apply: IH P].
    move=> /[dup] /In_ix [p pl Ep] iu; move: PU; rewrite -Ep (posn_ix (view_nodup_u CV) pl) => -[<-].
    by rewrite Ep /sens_rhs; cbn [mx]; have /(ju_kju HC HE HR) /contains_In -> := iu.
  have is_ : In i (kjs (rc r)).
    have : In i (kjs (rc r) ++ kju (rc r)) by rewrite (cv_order CV); apply: in_or_app; right.
    move=> /(@in_app_or _ _ _ _) [//|] /In_ix [p pl Ep]; by rewrite -Ep (posn_ix (view_nodup_u CV) pl) in PU.
  have [p pl Ep] := In_ix is_; rewrite -{1}Ep (posn_ix (view_nodup_s CV) pl).
  have [Lb Ls _] := cv_sizes CV.
  have pn : (p < knbe (rc r) + knbi (rc r) + (knne (rc r) + knni (rc r)))%N by apply/ssrnat.ltP; rewrite -Ls.
  have pb : (knbe (rc r) + knbi (rc r) <= p)%N.
    rewrite leqNgt; apply/negP => pb.
    have ib : In i (kjb (rc r)).
      rewrite -Ep (ix_kjs CV) //; rewrite pb; apply: nth_In; rewrite Lb; exact/ssrnat.ltP.
    have ND : NoDup (kjb (rc r) ++ kjn (rc r)) by rewrite -(cv_order CV); exact: view_nodup CV.
    by elim: (kjb (rc r)) ND ib => //= x l IH /NoDup_cons_iff [H1 H2] [Ex|/(IH H2)//]; apply: H1; rewrite Ex; apply: in_or_app; right.
  rewrite /rawcol insubT /null_finish; cbn [vxs].
  have pk : (p - (knbe (rc r) + knbi (rc r)) < knne (rc r) + knni (rc r))%N by rewrite ltn_subLR.
  have -> : Sub p pn = rshift (knbe (rc r) + knbi (rc r)) (Ordinal pk) by apply: val_inj; rewrite /= subnKC.
  by rewrite col_mxEd !linear0 mxE.
- by move=> l; cbn [sp master_result mp]; rewrite /null_finish; cbn [vp]; rewrite !linear0 rawcol0.
Qed.
Print Assumptions C109_large_zero.

(** min (x0^2 + x1^2)/2 - c (x0 + x1) subject to x2 = 0, -1 <= x <= 1, at c = 0 from its solution x = (0, 0, 0): dx/dc = (1, 1, 0). *)
Section Units.
Variable F : realFieldType.
Definition d109 : pdata F := PData (zer F) (fun _ => -1) (fun _ => 1).
Definition e109 : evals F := Evals (zer F) (fun i j => (i == j)%:R) (fun _ _ => 0) (zer F) (zer F) (fun _ _ => 0) (fun i j => (i == j)%:R).
Definition W109 : rawmx F := fun _ j => (j == 2%N)%:R.
Definition q109 : rwq F := RWQ (fun _ _ => 1) (fun _ _ => 0) (fun _ _ => 0) [:: 2%N] [:: 0%N; 1%N].
Definition k109 : cderivs F := CDerivs (fun i => if (i < 2)%N then -1 else 0) (zer F) (zer F) (zer F).
Definition t109 (a : F) : Sens_model.sens F := Sens_model.Sens (fun i => if (i < 2)%N then a else 0) (zer F) (zer F) (zer F).
Lemma q109_echelon : echelon_of 3 0 (1 + 0) e109 W109 W109 q109.
Proof.
by move=> ju; split; [exact: (Permutation_sym (Permutation_cons_append [:: 0%N; 1%N] 2%N)) | | | ] => -[|[|i]] [|[|k]] // _ _; rewrite big_ord1 ?mulr1 ?mulr0.
Qed.
Lemma lag109 i : lagrangian 1 0 e109 W109 (u45 F) i = 0.
Proof. by rewrite /lagrangian big_ord1 /= /zer mulr0 addr0. Qed.
End Units.

(** In the units a the derivatives are (a, a), as they should; in the larger units b they are zero, although they
    are (b, b). *)
Theorem C109_units_refuted : forall (F : realFieldType) (eps : F), 0 < eps -> exists r f a b t t',
  [/\ rf_update libstdcxx_partition 3 0 1 0 (d109 F) (e109 F) (W109 F) (W109 F) (q109 F) (u45 F) = Some r,
      full_piv (nM (null_decompose (canon_cmat 0 (rM r) (rc r)))) f, 0 < a /\ 0 < b,
      sens_solve (r := r) (np := 0) 1 0 eps (times a (k109 F)) f (r0z F) (s0z F) = Some t /\ sx t 0%N = a /\ sx t 1%N = a
    & sens_solve (r := r) (np := 0) 1 0 eps (times b (k109 F)) f (r0z F) (s0z F) = Some t' /\ sx t' 0%N = 0 /\ sx t' 1%N = 0].
Proof.
move=> F eps e0; have HE := @q109_echelon F.
have N1 : (-1 : F) <> 0 by move/eqP; rewrite oppr_eq0 oner_eq0.
have [r [HR CV]] := C68_update_total (d109 F) (u45 F) libstdcxx_contract HE; exists r.
have [EM _ _] := rf_update_view libstdcxx_contract HE HR.
have [f fp] := full_piv_exists (nM (null_decompose (canon_cmat 0 (rM r) (rc r)))); exists f.
have JU i : ~ In i (status_ju (rst r)).
  by move=> /(status_ju_spec libstdcxx_contract HE HR) []// _ _; rewrite lag109 ltxx => -[[]|[]].
have JM i : ~ In i (status_jms (rst r)).
  by move=> /(status_jms_spec libstdcxx_contract HE HR) []// _; rewrite lag109 ltxx => -[[]|[]].
have N : nonsingular (canon_cmat 0 (rM r) (rc r)) by apply: view_nonsingular CV _ _ _; rewrite EM.
have [a a0 Ra] := lu_small f (null_rhs (null_decompose (canon_cmat 0 (rM r) (rc r))) (rhs_of 0 1 0 r (k109 F) (r0z F))) (ltW e0).
have n1 : (knbe (rc r) + ((knne (rc r) + knni (rc r)) + (0 + knbe (rc r))) != 1)%N.
  have [Lb Ls _] := cv_sizes CV.
  have E1 : length (kjb (rc r)) = 1%N by rewrite -(Permutation_length (cv_basic CV)).
  have E0 : kju (rc r) = [::].
    have : forall i, In i (kju (rc r)) -> False by move=> i /(ju_kju libstdcxx_contract HE HR) /JU.
    by case: (kju (rc r)) => // x l /(_ x (or_introl erefl)).
  have E3 : length (kjs (rc r)) = 3%N.
    have := f_equal (@length nat) (cv_order CV); rewrite E0 List.app_nil_r List.app_length E1 => ->.
    by rewrite -(Permutation_length (cv_nonbasic CV)).
  rewrite E1 in Lb; rewrite E3 -Lb in Ls.
  have -> : (knne (rc r) + knni (rc r) = 2)%N by case: Ls.
  by rewrite add0n addnCA.
have [b b0 Hb] := C109_large_zero f (k109 F) (r0z F) (s0z F) libstdcxx_contract HE HR e0 n1.
have [t' [E' Z' _]] := Hb b (ler_norm b).
have S : solvable (r := r) (np := 0) 1 0 eps (times a (k109 F)) (r0z F) f.
  split=> //; first exact: ltW; split=> //.
  rewrite -/(rhs_of 0 1 0 r (times a (k109 F)) (r0z F)).
  have -> : rhs_of 0 1 0 r (times a (k109 F)) (r0z F) = ccomb a (rhs_of 0 1 0 r (k109 F) (r0z F)) 0 (rhs_of 0 1 0 r (k109 F) (r0z F)).
    rewrite -(rhs_comb libstdcxx_contract HE HR a (k109 F) 0 (k109 F) (r0z F) (r0z F) (r0z F)) /rhs_of /canon_rhs; congr CVec; apply/matrixP => i j; rewrite !mxE /=.
    - by rewrite mul0r addr0.
    - by rewrite mul0r addr0.
    - by apply: eq_bigr => l _; rewrite !mul0r !addr0.
  by rewrite null_rhsZ.
have RS : rows_spanned 3 1 (rM r) (rc r).
  exists (fun _ _ => 1) => l j _ _; have eb : kjb (rc r) = [:: 2%N] by apply: Permutation_length_1_inv; apply: (cv_basic CV).
  have [nb1 _ _] := cv_sizes CV; rewrite eb /= in nb1; rewrite -nb1 !big_ord1 mul1r EM /=.
  have [_ H _ _] := cv_echelon CV; move: H; rewrite eb EM => /(_ 0%N 0%N isT isT); rewrite big_ord1 /= /W109 /= mulr1 => ->.
  by rewrite mul1r.
have D : differentiated 3 0 1 0 (rM r) (times a (k109 F)) (t109 a) (status_js (rst r)) (status_ju (rst r)).
  rewrite EM; split=> [i|i /JU//|//|].
  - move=> H; have : (i < 3)%N by apply/(status_ltn libstdcxx_contract HE HR); left.
    rewrite /d_stability !big_ord_recl !big_ord0 /= /zer /W109.
    by case: i {H} => [|[|[|]]] //= _; rewrite ?mulr0 ?mul0r ?mul1r ?mulrN1 ?addr0 ?add0r ?addNr.
  - case=> [|l] // _; rewrite /d_constraint !big_ord_recl !big_ord0 /= /W109 /zer /=.
    by rewrite !mulr0 !mul0r !addr0 subrr.
have [t [E _ X _]] := C61_solution_partial (s0z F) libstdcxx_contract HE HR S RS D (fun i H => match JM i H with end).
exists a, b, t, t'; split=> //; first by split=> //; rewrite X // X.
by split=> //; split; apply: Z'; [left | right; left].
Qed.
Print Assumptions C109_units_refuted.

(** a case of the chain rule: the parameter of C61 twice as fast together with one on which the gradient depends *)
Example C109_case (F : realFieldType) : exists r f, rf_update libstdcxx_partition 2 0 1 0 (d61 F) (e61 F) (W61 F) (W61 F) (q61 F) (u45 F) = Some r /\
  let k2 := CDerivs (fun _ => 1) (zer F) (zer F) (zer F) in
  [/\ solvable (r := r) (np := 0) 1 0 0 (k61 F) (r0z F) f, solvable (r := r) (np := 0) 1 0 0 k2 (r0z F) f
    & solvable (r := r) (np := 0) 1 0 0 (combine 2%:R (k61 F) 3%:R k2) (r0z F) f].
Proof.
have [r [f [HR _ [e0 N [fp _]] _ _]]] := case61 F; exists r, f; split=> //.
by split; split=> //; split=> //; exact: resolved0.
Qed.

(** Asking for the sensitivities does not change the Result and the State. *)
Theorem C109_same : forall lu eps r0 s0 part E ech nonfinite newton phi check fuel o f1 f2 f3 oAx oAp obc (w : world E) hist m (P : problem R xreal) st r st' S,
  u_solve_sens lu eps r0 s0 part ech nonfinite newton phi check fuel o f1 f2 f3 oAx oAp obc w hist m P st = Some (r, st', S) ->
  u_solve part ech nonfinite newton phi check fuel o f1 f2 f3 oAx oAp obc w hist m P st = Some (r, st').
Proof.
move=> lu eps r0 s0 part E ech nonfinite newton phi check fuel o f1 f2 f3 oAx oAp obc w hist m P st r st' S; rewrite /u_solve_sens /u_solve.
case: update_master => [M|//]; case: ifP => // _; case: m_solve => [[r' s]|//].
case: (w_res _) => [rr|//]; case: (finite _) => [x|//]; case: (finite _) => [p|//]; case: m_sens => [g|//].
by case=> -> <- _.
Qed.
Print Assumptions C109_same.
