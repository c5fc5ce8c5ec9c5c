(** Property theorems C61. *)
From Coq Require Import List PeanoNat Permutation.
From mathcomp Require Import all_ssreflect all_algebra.
From Verif Require Import Num Index_model Index_spec Index_proofs MatUtil_model MatUtil_proofs Num_rf LU_model LU_spec Linear_model Linear_spec Linear_proofs Canonical_model Canonical_spec Canonical_proofs.
From Verif Require Import ResErr_model Residual_model Residual_spec Residual_proofs Sens_model Sens_spec Sens_proofs.
From Verif Require Import P_Linear P_Canonical P_Residual.
Set Implicit Arguments.
Unset Strict Implicit.
Unset Printing Implicit Defensive.
Local Open Scope ring_scope.
Import Order.TTheory GRing.Theory Num.Theory.

(** The linear system of the sensitivities can be solved: the canonical form of the Jacobian
    is nonsingular, the LU factors are those of the Nullspace method and no equation is
    discarded for lack of magnitude (C33). *)
Definition solvable (F : realFieldType) (np ny nz : nat) (eps : F) (r : residual F) (k : cderivs F) (r0 : rawvec F)
    (f : lufac F (knbe (rc r) + ((knne (rc r) + knni (rc r)) + (np + knbe (rc r))))) : Prop :=
  [/\ 0 <= eps, nonsingular (canon_cmat np (rM r) (rc r))
    & method_ok (ny + nz) eps (rM r) (sens_rhs ny (status_js (rst r)) (status_ju (rst r)) k r0) (MNullspace f)].

Lemma sens_solve_eqs (F : realFieldType) part (nx np ny nz : nat) (d : pdata F) (e : evals F) Wx Wp q u r eps k f r0 s0 :
  partition_contract part -> echelon_of nx np (ny + nz) e Wx Wp q ->
  rf_update part nx np ny nz d e Wx Wp q u = Some r -> solvable (r := r) (np := np) ny nz eps k r0 f ->
  exists t v, [/\ sens_solve (r := r) (np := np) ny nz eps k f r0 s0 = Some t,
    ls_solve eps (ny + nz) (rM r) (MNullspace f) (sens_rhs ny (status_js (rst r)) (status_ju (rst r)) k r0) (sx s0) = Some v,
    master_eqs np (ny + nz) (rM r) (rc r) (sens_rhs ny (status_js (rst r)) (status_ju (rst r)) k r0) v,
    sp t = mp v /\ sw t = mw v & forall i, sx t i = if contains i (status_jms (rst r)) then 0 else mx v i].
Proof.
move=> HC HE HR [e0 N ok]; have [_ CV _] := rf_update_view HC HE HR.
have [v E H] := C39_solve_partial (sx s0) CV e0 N ok.
by rewrite /sens_solve E; eexists; exists v; split.
Qed.

(** ** C61.  Whenever a result is produced, dx/dc is zero on the unstable and meta-stable
    variables and ds/dc on the stable ones. *)
Theorem C61_zeros : forall (F : realFieldType) part (nx np ny nz : nat) (d : pdata F) (e : evals F) Wx Wp q u r (eps : F) k f r0 s0 t,
  partition_contract part -> echelon_of nx np (ny + nz) e Wx Wp q ->
  rf_update part nx np ny nz d e Wx Wp q u = Some r -> sens_solve (r := r) (np := np) ny nz eps k f r0 s0 = Some t ->
  [/\ forall i, In i (status_ju (rst r)) -> sx t i = 0,
      forall i, In i (status_jms (rst r)) -> sx t i = 0
    & forall i, In i (status_js (rst r)) -> ss t i = 0].
Proof.
move=> F part nx np ny nz d e Wx Wp q u r eps k f r0 s0 t HC HE HR; have [_ CV _] := rf_update_view HC HE HR.
rewrite /sens_solve /ls_solve; case: nullspace => //= w [<-] /=; split=> i ij.
- case: ifP => // _.
  have /(ju_kju HC HE HR) iu := ij.
  have [j jl <-] := In_ix iu; rewrite (posn_ix (view_nodup_u CV) jl).
  have : In (ix (kju (rc r)) j) (status_ju (rst r)) by apply/(ju_kju HC HE HR); apply: nth_In.
  by move/contains_In => ->.
- by have /contains_In -> := ij.
- case: ifP => [/contains_In iu|_]; first by case: (status_disj HC HE HR ij iu).
  by have /contains_In -> := ij.
Qed.
Print Assumptions C61_zeros.

(** Without meta-stable variables the derivatives satisfy the differentiated conditions, the
    differentiated constraints in the combinations R of the echelon form.  Missing:
    meta-stable variables, see [C61_metastable_refuted]. *)
Theorem C61_equations_partial : forall (F : realFieldType) part (nx np ny nz : nat) (d : pdata F) (e : evals F) Wx Wp q u r (eps : F) k f r0 s0,
  partition_contract part -> echelon_of nx np (ny + nz) e Wx Wp q ->
  rf_update part nx np ny nz d e Wx Wp q u = Some r -> solvable (r := r) (np := np) ny nz eps k r0 f ->
  (forall i, ~ In i (status_jms (rst r))) ->
  exists t, [/\ sens_solve (r := r) (np := np) ny nz eps k f r0 s0 = Some t,
    d_stationary nx np ny nz (rM r) k t (status_js (rst r)), d_fixed t (status_ju (rst r)), d_external nx np (rM r) k t
  & forall i, (i < knbe (rc r) + knbi (rc r))%N -> \sum_(l < ny + nz) kR (rc r) i l * d_constraint nx np ny (rM r) k t l = 0].
Proof.
move=> F part nx np ny nz d e Wx Wp q u r eps k f r0 s0 HC HE HR S NM.
have [t [v [E _ Hv [Ep Ew] Ex]]] := sens_solve_eqs s0 HC HE HR S; exists t.
have X i : sx t i = mx v i.
  by rewrite Ex; case: ifP => // /contains_In /NM.
have [[H _] _] := @master_differentiated F part nx np ny nz d e Wx Wp q u r HC HE HR k r0 (Sens (mx v) (sp t) (sw t) (ss t)) v erefl (esym Ep) (esym Ew).
have {H} [H1 H2 H3 H4] := H Hv.
have SX (g : nat -> F) : \sum_(j < nx) g j * sx t j = \sum_(j < nx) g j * mx v j by apply: eq_bigr => j _; rewrite X.
split=> //.
- by move=> i /H1; rewrite /d_stability SX.
- by move=> i /H2 /=; rewrite X.
- by move=> l /H3; rewrite /d_v SX.
- by move=> i ib; rewrite -[RHS](H4 i ib); apply: eq_bigr => l _; rewrite /d_constraint SX.
Qed.
Print Assumptions C61_equations_partial.

(** When the differentiated conditions have a solution that keeps the meta-stable variables
    fixed, and Wx has as many independent rows as basic variables, the result satisfies all of
    them and its dx/dc and dp/dc are those of every solution. *)
Theorem C61_solution_partial : forall (F : realFieldType) part (nx np ny nz : nat) (d : pdata F) (e : evals F) Wx Wp q u r (eps : F) k f r0 s0 t',
  partition_contract part -> echelon_of nx np (ny + nz) e Wx Wp q ->
  rf_update part nx np ny nz d e Wx Wp q u = Some r -> solvable (r := r) (np := np) ny nz eps k r0 f ->
  rows_spanned nx (ny + nz) (rM r) (rc r) ->
  differentiated nx np ny nz (rM r) k t' (status_js (rst r)) (status_ju (rst r)) ->
  (forall i, In i (status_jms (rst r)) -> sx t' i = 0) ->
  exists t, [/\ sens_solve (r := r) (np := np) ny nz eps k f r0 s0 = Some t,
    differentiated nx np ny nz (rM r) k t (status_js (rst r)) (status_ju (rst r)),
    forall i, (i < nx)%N -> sx t i = sx t' i & forall l, (l < np)%N -> sp t l = sp t' l].
Proof.
move=> F part nx np ny nz d e Wx Wp q u r eps k f r0 s0 t' HC HE HR S RS [D1 D2 D3 D4] NM.
have [t [v [E _ Hv [Ep Ew] Ex]]] := sens_solve_eqs s0 HC HE HR S; exists t.
have [_ CV _] := rf_update_view HC HE HR; have [_ N _] := S.
have [[_ H'] HA'] := @master_differentiated F part nx np ny nz d e Wx Wp q u r HC HE HR k r0 t' (MVec (sx t') (sp t') (sw t')) erefl erefl erefl.
have Hv' : master_eqs np (ny + nz) (rM r) (rc r) (sens_rhs ny (status_js (rst r)) (status_ju (rst r)) k r0) (MVec (sx t') (sp t') (sw t')).
  by apply: H'; split=> // i _; apply: big1 => l _; rewrite D4 ?mulr0.
have [Ux Up] := master_unique CV RS N Hv Hv'.
have X i : (i < nx)%N -> sx t i = mx v i.
  by move=> il; rewrite Ex; case: ifP => // /contains_In /NM Z; rewrite Ux /= ?Z.
have [[H _] HA] := @master_differentiated F part nx np ny nz d e Wx Wp q u r HC HE HR k r0 (Sens (mx v) (sp t) (sw t) (ss t)) v erefl (esym Ep) (esym Ew).
have {H} [H1 H2 H3 _] := H Hv.
have SX (g : nat -> F) : \sum_(j < nx) g j * sx t j = \sum_(j < nx) g j * mx v j by apply: eq_bigr => j _; rewrite X.
have SX' (g : nat -> F) : \sum_(j < nx) g j * sx t j = \sum_(j < nx) g j * sx t' j by apply: eq_bigr => j _; rewrite X // Ux.
split=> //; last 2 first.
- by move=> i il; rewrite X // Ux.
- by move=> l ll; rewrite Ep Up.
split.
- by move=> i /H1; rewrite /d_stability SX.
- move=> i iu; rewrite X; first exact: H2 iu.
  by apply/(status_ltn HC HE HR); right.
- by move=> l /H3; rewrite /d_v SX.
- move=> l ll; apply: etrans (D4 l ll); rewrite /d_constraint SX'; congr (_ + _ - _).
  by apply: eq_bigr => j _; rewrite Ep Up.
Qed.
Print Assumptions C61_solution_partial.

(** ds/dc is the derivative of s = g + Wx'w on the stable variables, and on those unstable
    ones whose gradient entry does not depend on the stable variables nor on p.  Missing: see
    [C61_stability_refuted]. *)
Theorem C61_stability_partial : forall (F : realFieldType) part (nx np ny nz : nat) (d : pdata F) (e : evals F) Wx Wp q u r (eps : F) k f r0 s0,
  partition_contract part -> echelon_of nx np (ny + nz) e Wx Wp q ->
  rf_update part nx np ny nz d e Wx Wp q u = Some r -> solvable (r := r) (np := np) ny nz eps k r0 f ->
  (forall i, ~ In i (status_jms (rst r))) ->
  exists t, [/\ sens_solve (r := r) (np := np) ny nz eps k f r0 s0 = Some t,
    forall i, In i (status_js (rst r)) -> ss t i = d_stability nx np ny nz (rM r) k t i
  & forall i, In i (status_ju (rst r)) ->
      (forall j, In j (status_js (rst r)) -> mHxx (rM r) i j = 0) -> (forall l, (l < np)%N -> mHxp (rM r) i l = 0) ->
      ss t i = d_stability nx np ny nz (rM r) k t i].
Proof.
move=> F part nx np ny nz d e Wx Wp q u r eps k f r0 s0 HC HE HR S NM.
have [t [E H1 H2 _ _]] := C61_equations_partial s0 HC HE HR S NM; exists t; split=> // i ij.
- by rewrite H1 //; have [_ _ ->] := C61_zeros HC HE HR E.
move=> HX HP; rewrite /d_stability.
rewrite big1 => [|j _]; last first.
  have /(status_ltn HC HE HR) [H|H] : (j < nx)%N by [].
    by rewrite HX ?mul0r.
  by rewrite H2 ?mulr0.
rewrite big1 => [|j _]; last by rewrite HP ?mul0r.
rewrite !addr0.
move: E; rewrite /sens_solve; case: ls_solve => //= v [<-] /=.
by have /contains_In -> := ij.
Qed.
Print Assumptions C61_stability_partial.

(** Jacobians whose stable part is Hss = I, Vps = 0, Vpp = I are nonsingular *)
Lemma view_nonsingular (F : realFieldType) nx np nw (M : mmat F) q c : canonical_view nx np nw M q c ->
  (forall i j, In i (kjs c) -> In j (kjs c) -> mHxx M i j = (i == j)%:R) -> (forall l j, mVpx M l j = 0) -> (forall i j, mVpp M i j = (i == j)%:R) ->
  nonsingular (canon_cmat np M c).
Proof.
move=> CV HX HV HP; have [_ ls _] := cv_sizes CV.
have lt (k : 'I_(knbe c + knbi c + (knne c + knni c))) : (k < length (kjs c))%coq_nat by rewrite ls; apply/ssrnat.ltP.
apply: ident_nonsingular; last 2 first.
+ by apply/matrixP => i j; rewrite !mxE HV.
+ by apply/matrixP => i j; rewrite !mxE HP.
apply/matrixP => i j; rewrite !mxE HX; try exact: nth_In.
congr ((nat_of_bool _)%:R).
have nd : NoDup (kjs c) by apply: view_nodup_s CV.
by apply/idP/idP => /eqP Eij; apply/eqP; [apply: val_inj; apply: (proj1 (NoDup_nth (kjs c) 0%N) nd i j (lt i) (lt j) Eij) | rewrite Eij].
Qed.

(** min (x0^2)/2 + x0*x1 + x1 subject to x0 = c, -1 <= x0 <= 1, 0 <= x1 <= 1, at c = 0, x = (0, 0),
    w = 0: x1 is unstable with s1 = x0 + 1 = 1 and, x0 being c, ds1/dc = 1. *)
Section Coupled.
Variable F : realFieldType.
Definition d61 : pdata F := PData (zer F) (fun i => if i is O then -1 else 0) (fun _ => 1).
Definition e61 : evals F :=
  Evals (fun i => if i is O then 0 else 1) (fun i j => ((i == 0%N) || (j == 0%N))%:R) (fun _ _ => 0) (zer F) (zer F) (fun _ _ => 0) (fun i j => (i == j)%:R).
Definition W61 : rawmx F := fun _ j => (j == 0%N)%:R.
Definition q61 : rwq F := RWQ (fun _ _ => 1) (fun _ _ => 0) (fun _ _ => 0) [:: 0%N] [:: 1%N].
Definition k61 : cderivs F := CDerivs (zer F) (zer F) (fun _ => 1) (zer F).
Lemma q61_echelon : echelon_of 2 0 (1 + 0) e61 W61 W61 q61.
Proof.
by move=> ju; split; [exact: Permutation_refl | | | ] => -[|i] [|k] // _ _; rewrite big_ord1 ?mulr1 ?mulr0.
Qed.
Definition r0z : rawvec F := zer F.
Definition s0z : sens F := Sens (zer F) (zer F) (zer F) (zer F).
Definition t61 : sens F := Sens (fun i => if i is O then 1 else 0) (zer F) (fun _ => -1) (fun i => if i is O then 0 else 1).
Lemma lag61 i : lagrangian 1 0 e61 W61 (u45 F) i = if i is O then 0 else 1.
Proof. by rewrite /lagrangian big_ord1 /= /zer mulr0 addr0. Qed.

Lemma case61 : exists r f, [/\ rf_update libstdcxx_partition 2 0 1 0 d61 e61 W61 W61 q61 (u45 F) = Some r,
  rerror r = 0, solvable (r := r) (np := 0) 1 0 0 k61 r0z f, rows_spanned 2 1 (rM r) (rc r)
  & [/\ forall i, ~ In i (status_jms (rst r)), In 1%N (status_ju (rst r)), In 0%N (status_js (rst r)) & rM r = rf_master e61 W61 W61 (status_ju (rst r))]].
Proof.
have N1 : (-1 : F) <> 0 by move/eqP; rewrite oppr_eq0 oner_eq0.
have [r [HR CV]] := C68_update_total d61 (u45 F) libstdcxx_contract q61_echelon; exists r.
have [EM _ EE] := rf_update_view libstdcxx_contract q61_echelon HR.
have [f fp] := full_piv_exists (nM (null_decompose (canon_cmat 0 (rM r) (rc r)))); exists f.
have J0 : In 0%N (status_js (rst r)).
  have /(status_ltn libstdcxx_contract q61_echelon HR) [//|/(status_ju_spec libstdcxx_contract q61_echelon HR) []//] : (0 < 2)%N by [].
  by move=> _ []; left.
have J1 : In 1%N (status_ju (rst r)).
  apply/(status_ju_spec libstdcxx_contract q61_echelon HR) => //; split=> //; first by case.
  by left; rewrite lag61 ltr01.
have JS i : In i (kjs (rc r)) -> i = 0%N.
  move=> /(js_kjs libstdcxx_contract q61_echelon HR) /[dup] H.
  have : (i < 2)%N by apply/(status_ltn libstdcxx_contract q61_echelon HR); left.
  by case: i H => [|[|]] // H _ /(status_disj libstdcxx_contract q61_echelon HR) /(_ J1).
split=> //; last first.
- split=> //; last by rewrite EM (rst_eq HR).
  move=> i /(status_jms_spec libstdcxx_contract q61_echelon HR) []// [<-|[]//]; rewrite lag61 ltxx => -[[]//|[]//].
- exists (fun _ _ => 1) => l j _ _; have eb : kjb (rc r) = [:: 0%N] by apply: Permutation_length_1_inv; apply: (cv_basic CV).
  have [nb1 _ _] := cv_sizes CV; rewrite eb /= in nb1; rewrite -nb1 !big_ord1 mul1r EM /=.
  have [_ H _ _] := cv_echelon CV; move: H; rewrite eb EM => /(_ 0%N 0%N isT isT); rewrite big_ord1 /= /W61 /= mulr1 => ->.
  by rewrite mul1r.
- split=> //; last by split=> //; exact: resolved0.
  apply: view_nonsingular CV _ _ _; rewrite EM //= => i j /JS -> /JS -> //.
- rewrite EE; apply: err_update0 => //.
  + case=> [|[|i]] // _; left; rewrite /rv_ax.
      by case: ifP => // _; rewrite EM big_ord1 big_ord0 /= /zer mulr0 !addr0 oppr0.
    by have /(ju_kju libstdcxx_contract q61_echelon HR) /contains_In -> := J1.
  + move=> i ib; rewrite /rv_awbs multiplyClean0 //; last first.
      by case=> // _; rewrite /rv_awstar /= /zer big1 ?subr0 ?mulr0 // => k _; rewrite mulr0.
    by rewrite /= /zer big_ord0 big1 ?addr0 ?subrr // => k _; rewrite mulr0.
Qed.

Lemma t61_differentiated js ju : (forall i, In i js -> i = 0%N) -> (forall i, In i ju -> i = 1%N) ->
  differentiated 2 0 1 0 (rf_master e61 W61 W61 ju) k61 t61 js ju.
Proof.
move=> JS JU; split.
- move=> i /JS ->; rewrite /d_stability !big_ord_recl !big_ord0 /= /zer /W61 /=.
  by rewrite !mulr0 !mul1r !addr0 !add0r subrr.
- by move=> i /JU ->.
- by [].
- case=> [|l] // _; rewrite /d_constraint !big_ord_recl !big_ord0 /= /W61 /=.
  by rewrite !mulr0 mulr1 !addr0 subrr.
Qed.
End Coupled.

Example C61_case (F : realFieldType) : exists r f, [/\ rf_update libstdcxx_partition 2 0 1 0 (d61 F) (e61 F) (W61 F) (W61 F) (q61 F) (u45 F) = Some r,
  solvable (r := r) (np := 0) 1 0 0 (k61 F) (r0z F) f, rows_spanned 2 1 (rM r) (rc r), forall i, ~ In i (status_jms (rst r))
  & differentiated 2 0 1 0 (rM r) (k61 F) (t61 F) (status_js (rst r)) (status_ju (rst r))].
Proof.
have [r [f [HR _ S RS [NM J1 J0 EM]]]] := case61 F; exists r, f; split=> //.
rewrite EM; apply: t61_differentiated => i H.
- have : (i < 2)%N by apply/(status_ltn libstdcxx_contract (@q61_echelon F) HR); left.
  by case: i H => [|[|]] // /(status_disj libstdcxx_contract (@q61_echelon F) HR) /(_ J1).
- have : (i < 2)%N by apply/(status_ltn libstdcxx_contract (@q61_echelon F) HR); right.
  by case: i H => [|[|]] // H; case: (status_disj libstdcxx_contract (@q61_echelon F) HR J0 H).
Qed.

(** The term H*dx/dc of the unstable variables is missing: ds1/dc is 1, the result is 0. *)
Theorem C61_stability_refuted : forall F : realFieldType, exists r f t,
  [/\ rf_update libstdcxx_partition 2 0 1 0 (d61 F) (e61 F) (W61 F) (W61 F) (q61 F) (u45 F) = Some r,
      rerror r = 0, sens_solve (r := r) (np := 0) 1 0 0 (k61 F) f (r0z F) (s0z F) = Some t,
      differentiated 2 0 1 0 (rM r) (k61 F) t (status_js (rst r)) (status_ju (rst r))
    & In 1%N (status_ju (rst r)) /\ d_stability 2 0 1 0 (rM r) (k61 F) t 1 = 1 /\ ss t 1%N = 0].
Proof.
move=> F; have [r [f [HR E0 S RS [NM J1 J0 EM]]]] := case61 F.
have D' : differentiated 2 0 1 0 (rM r) (k61 F) (t61 F) (status_js (rst r)) (status_ju (rst r)).
  have [r' [f' [HR' _ _ _ ?]]] := C61_case F; by have -> : r = r' by move: HR; rewrite HR' => -[].
have [t [E D X _]] := C61_solution_partial (s0z F) libstdcxx_contract (@q61_echelon F) HR S RS D' (fun i H => match NM i H with end).
exists r, f, t; split=> //; split=> //; split.
- rewrite /d_stability !big_ord_recl !big_ord0 /= (X 0%N isT) (X 1%N isT) EM /= /zer /W61 /=.
  by rewrite !mulr0 !mul0r !addr0 mul1r add0r.
- move: E; rewrite /sens_solve; case: ls_solve => //= v [<-] /=.
  by have /contains_In -> := J1; rewrite big_ord1 EM /= /W61 /= /zer mul0r addr0.
Qed.
Print Assumptions C61_stability_refuted.

(** min x + (x^2)/2 subject to x = c, 0 <= x <= 1, at c = 0, x = 0, w = 0.  The error is 0
    although s = 1: the only variable is basic and on its bound, meta-stable. *)
Section MetaStable.
Variable F : realFieldType.
Definition dms : pdata F := PData (zer F) (zer F) (fun _ => 1).
Definition ems : evals F := Evals (fun _ => 1) (fun _ _ => 1) (fun _ _ => 0) (zer F) (zer F) (fun _ _ => 0) (fun i j => (i == j)%:R).
Definition Wms : rawmx F := fun _ _ => 1.
Definition qms : rwq F := RWQ (fun _ _ => 1) (fun _ _ => 0) (fun _ _ => 0) [:: 0%N] [::].
Lemma qms_echelon : echelon_of 1 0 (1 + 0) ems Wms Wms qms.
Proof. by move=> ju; split; [exact: Permutation_refl | | | ] => -[|i] [|k] // _ _; rewrite big_ord1 ?mulr1. Qed.
Definition tms : sens F := Sens (fun _ => 1) (zer F) (fun _ => -1) (zer F).
End MetaStable.

(** The derivatives exist (dx/dc = 1) but dx/dc is set to zero after the solution, which
    breaks the differentiated constraint dx/dc = 1. *)
Theorem C61_metastable_refuted : forall F : realFieldType, exists r f,
  [/\ rf_update libstdcxx_partition 1 0 1 0 (dms F) (ems F) (Wms F) (Wms F) (qms F) (u45 F) = Some r,
      rerror r = 0, solvable (r := r) (np := 0) 1 0 0 (k61 F) (r0z F) f,
      differentiated 1 0 1 0 (rM r) (k61 F) (tms F) (status_js (rst r)) (status_ju (rst r))
    & exists2 t, sens_solve (r := r) (np := 0) 1 0 0 (k61 F) f (r0z F) (s0z F) = Some t & ~ d_constraints 1 0 1 0 (rM r) (k61 F) t].
Proof.
move=> F; have HE := @qms_echelon F.
have [r [HR CV]] := C68_update_total (dms F) (u45 F) libstdcxx_contract HE; exists r.
have [EM _ EE] := rf_update_view libstdcxx_contract HE HR.
have [f fp] := full_piv_exists (nM (null_decompose (canon_cmat 0 (rM r) (rc r)))); exists f.
have S : solvable (r := r) (np := 0) 1 0 0 (k61 F) (r0z F) f.
  split=> //; last by split=> //; exact: resolved0.
  apply: (view_nonsingular CV); rewrite EM //= => i j.
  by move=> /(cv_stable CV) []; case: i => // _ _ /(cv_stable CV) []; case: j => // _ _; rewrite eqxx.
have L : lagrangian 1 0 (ems F) (Wms F) (u45 F) 0 = 1 by rewrite /lagrangian big_ord1 /= /zer mulr0 addr0.
have JM : In 0%N (status_jms (rst r)).
  by apply/(status_jms_spec libstdcxx_contract HE HR) => //; split; [left | left; rewrite L ltr01].
have JU i : ~ In i (status_ju (rst r)).
  by move=> /(status_ju_spec libstdcxx_contract HE HR) []//; case: i => // _ []; left.
split=> //.
- rewrite EE; apply: err_update0 => //.
  + case=> // _; right; split; last by left.
    by apply: Permutation_in (cv_basic CV) _; left.
  + move=> i ib; rewrite /rv_awbs multiplyClean0 //; last first.
      by case=> // _; rewrite /rv_awstar /= /zer big1 ?subr0 ?mulr0 // => k _; rewrite mulr0.
    by rewrite /= /zer big_ord0 big1 ?addr0 ?subrr // => k _; rewrite mulr0.
- split.
  + move=> i; have [_ /(_ _)] := status_ltn libstdcxx_contract HE HR i => _ H.
    by rewrite /d_stability !big_ord1 big_ord0 EM /= /zer mulr1 mulrN1 addr0 add0r subrr.
  + by move=> i /JU.
  + by [].
  + by case=> // _; rewrite /d_constraint big_ord1 big_ord0 EM /= /Wms mulr1 addr0 subrr.
- have [t [v [E _ _ _ Ex]]] := sens_solve_eqs (s0z F) libstdcxx_contract HE HR S; exists t => // /(_ 0%N isT).
  have /contains_In J := JM.
  rewrite /d_constraint big_ord1 big_ord0 Ex J mulr0 add0r /= sub0r => /eqP.
  by rewrite oppr_eq0 oner_eq0.
Qed.
Print Assumptions C61_metastable_refuted.
