(** Property theorems C42-C46 and C68. *)
From Coq Require Import List PeanoNat Permutation ZArith.
From Coq Require Import Floats.SpecFloat.
From mathcomp Require Import all_ssreflect all_algebra.
From Verif Require Import Num Index_model Index_spec Index_proofs MatUtil_model MatUtil_proofs Num_rf LU_model Linear_model Linear_spec Canonical_model Canonical_spec Canonical_proofs.
From Verif Require Import ResErr_model Residual_model Residual_spec Residual_proofs.
Set Implicit Arguments.
Unset Strict Implicit.
Unset Printing Implicit Defensive.
Local Open Scope ring_scope.
Import Order.TTheory GRing.Theory Num.Theory.

(** The echelon form handed to the canonicalizer (C67) does not depend on the stable set. *)
Definition echelon_of (F : realFieldType) (nx np nw : nat) (e : evals F) (Wx Wp : rawmx F) (q : rwq F) : Prop :=
  forall ju, echelon_form nx np nw (rf_master e Wx Wp ju) (qR q) (qSbn q) (qSbp q) (qjb q) (qjn q).

(** ** C68.  The residual function can be updated in every state: the canonicalizer never
    meets an unstable basic variable. *)
Theorem C68_update_total : forall (F : realFieldType) part (nx np ny nz : nat) (d : pdata F) (e : evals F) Wx Wp q u,
  partition_contract part -> echelon_of nx np (ny + nz) e Wx Wp q ->
  exists r, rf_update part nx np ny nz d e Wx Wp q u = Some r /\ canonical_view nx np (ny + nz) (rM r) q (rc r).
Proof.
move=> F part nx np ny nz d e Wx Wp q u HC HE.
have [r E] := rf_update_total d u HC HE; exists r; split=> //.
by have [] := rf_update_view HC HE E.
Qed.
Print Assumptions C68_update_total.

(** ** C42 *)
Theorem C42_residuals : forall (F : realFieldType) (nx np ny nz : nat) (d : pdata F) (e : evals F) (u : mvec F) (M : mmat F) q (c : canon F),
  canonical_view nx np (ny + nz) M q c ->
  [/\ forall i, (i < nx)%N -> ~ In i (mju M) -> rv_ax ny nz e M c u i = - lagrangian ny nz e (mWx M) u i,
      forall i, In i (mju M) -> rv_ax ny nz e M c u i = 0,
      forall k, rv_ap e k = - ev e k,
      forall l, rv_aw nx np ny d e M u l = constraint_left nx np ny d e (mWx M) (mWp M) u l
    & forall i, (i < knbe c + knbi c)%N ->
        `|rv_awbs np ny nz d e M c u i - \sum_(l < ny + nz) kR c i l * rv_aw nx np ny d e M u l|
          <= roundoff ny nz (kR c) (rv_awstar np ny d e M c u) i].
Proof.
move=> F nx np ny nz d e u M q c CV; split.
- by move=> i ix iu; apply: (ax_stable _ _ _ _ _ ix) => /(cv_unstable CV).
- by move=> i /(cv_unstable CV); apply: ax_unstable.
- by [].
- by move=> l; apply: aw_left.
- move=> i ib; rewrite (eq_bigr (fun l : 'I_(ny + nz) => kR c i l * constraint_left nx np ny d e (mWx M) (mWp M) u l)).
    by apply: (awbs_close d e u CV ib).
  by move=> l _; rewrite aw_left.
Qed.
Print Assumptions C42_residuals.

(** ** C43 *)
Theorem C43_small_error_is_kkt : forall (F : realFieldType) part (nx np ny nz : nat) (d : pdata F) (e : evals F) Wx Wp q u r (tol : F),
  partition_contract part -> echelon_of nx np (ny + nz) e Wx Wp q ->
  rf_update part nx np ny nz d e Wx Wp q u = Some r -> rerror r < tol ->
  [/\ forall i, (i < nx)%N -> kkt_x ny nz d e Wx u tol i \/ (In i (qjb q) /\ on_bound d u i),
      forall k, (k < np)%N -> `|ev e k| < tol
    & forall i, (i < length (qjb q))%N -> `|combined nx np ny nz d e Wx Wp u (kR (rc r)) i|
        < tol + roundoff ny nz (kR (rc r)) (rv_awstar np ny d e (rM r) (rc r) u) i].
Proof.
move=> F part nx np ny nz d e Wx Wp q u r tol HC HE E lt.
have [H1 H2 H3] := rf_update_bounds HC HE E; have [_ CV _] := rf_update_view HC HE E; split.
- move=> i /H1 [H|[H|[H|H]]]; [left; left | left; right; left | left; right; right | right] => //.
  exact: le_lt_trans H lt.
- by move=> k /H2 H; apply: le_lt_trans H lt.
- move=> i; have [lb _ _] := cv_sizes CV; rewrite (Permutation_length (cv_basic CV)) lb => /H3 H.
  by apply: le_lt_trans H _; rewrite ltr_add2r.
Qed.
Print Assumptions C43_small_error_is_kkt.

(** min -x0 subject to x0 + x1 = 0, 0 <= x0 <= 1, -1 <= x1 <= 0, at x = (0, 0).  Both
    variables are on a bound, so both get the weight -1. *)
Section Degenerate.
Variable F : realFieldType.
Definition zer : rawvec F := fun _ => 0.
Definition d45 : pdata F := PData zer (fun i => if i is O then 0 else -1) (fun i => if i is O then 1 else 0).
Definition e45 : evals F := Evals (fun i => if i is O then -1 else 0) (fun _ _ => 0) (fun _ _ => 0) zer zer (fun _ _ => 0) (fun _ _ => 0).
Definition W45 : rawmx F := fun _ _ => 1.
Definition q45 : rwq F := RWQ (fun _ _ => 1) (fun _ _ => 1) (fun _ _ => 1) [:: 0%N] [:: 1%N].
Definition u45 : mvec F := MVec zer zer zer.
Lemma q45_echelon : echelon_of 2 0 (1 + 0) e45 W45 W45 q45.
Proof.
by move=> ju; split; [exact: Permutation_refl | | | ] => -[|i] [|k] // _ _; rewrite big_ord1 mulr1.
Qed.
End Degenerate.
Example C43_case (F : realFieldType) : exists r, rf_update libstdcxx_partition 2 0 1 0 (d45 F) (e45 F) (W45 F) (W45 F) (q45 F) (u45 F) = Some r.
Proof. by have [r [E _]] := C68_update_total (d45 F) (u45 F) libstdcxx_contract (@q45_echelon F); exists r. Qed.

(** ** C44.  An error of x that is NaN makes the whole error NaN ... *)
Theorem C44_nan_partial : forall (T : Type) (N : Num T) (nx np nw nbs : nat) (Fx Fp wbs x xlower xupper : nat -> T) ju jbs (tol : T),
  (forall a b : T, nnan a = true -> nltb a b = false) ->
  nnan (norminf nx (err_ex Fx x xlower xupper ju jbs)) = true ->
  nltb (err_update nx np nw nbs Fx Fp wbs x xlower xupper ju jbs) tol = false.
Proof.
move=> T N nx np nw nbs Fx Fp wbs x xlower xupper ju jbs tol HN H.
by rewrite /err_update /err_max /nmax !(HN _ _ H).
Qed.
Print Assumptions C44_nan_partial.
Example C44_case : (forall a b : spec_float, nnan a = true -> nltb a b = false)
  /\ nnan (norminf 1 (err_ex (fun _ => S754_nan) (fun _ => nzero) (fun _ => nzero) (fun _ => none1) nil nil)) = true.
Proof. by split=> // -[]. Qed.

(** ... but a NaN residual of the external constraints v goes unnoticed: the error is 0. *)
Theorem C44_nan_refuted : let z := fun _ : nat => @nzero spec_float _ in
  nnan (norminf 1 (err_ep (fun _ => S754_nan))) = true /\
  err_update 1 1 0 0 z (fun _ => S754_nan) z z z z nil nil = nzero /\
  nltb (err_update 1 1 0 0 z (fun _ => S754_nan) z z z z nil nil) (nofZ 1) = true.
Proof. by []. Qed.
Print Assumptions C44_nan_refuted.

(** ** C45.  Missing: basic variables on their bounds. *)
Theorem C45_bound_optimality_partial : forall (F : realFieldType) part (nx np ny nz : nat) (d : pdata F) (e : evals F) Wx Wp q u r,
  partition_contract part -> echelon_of nx np (ny + nz) e Wx Wp q ->
  rf_update part nx np ny nz d e Wx Wp q u = Some r -> rerror r = 0 ->
  forall i, (i < nx)%N -> ~ (In i (qjb q) /\ on_bound d u i) ->
  let s := lagrangian ny nz e Wx u i in
  s = 0 \/ (mx u i = dxl d i /\ 0 < s) \/ (mx u i = dxu d i /\ s < 0).
Proof.
move=> F part nx np ny nz d e Wx Wp q u r HC HE E z i ix nb s.
have [/(_ i ix) H _ _] := rf_update_bounds HC HE E; case: H => [|[|[]]]; try tauto.
by rewrite z normr_le0 => /eqP; left.
Qed.
Print Assumptions C45_bound_optimality_partial.

(** ** C45 refuted: x = (0, 0) gets error 0 although y = (1, -1) is feasible too and has a
    lower objective value. *)
Lemma multiplyClean0 (F : realFieldType) m n (A : rawmx F) (a : rawvec F) k : (k < m)%N -> (forall l, (l < n)%N -> A k l * a l = 0) ->
  @multiplyClean F (Num_rf F) m n A a k = 0.
Proof.
move=> /ssrnat.ltP km Z; rewrite multiplyClean_pointwise // !dot_rf.
rewrite [X in if nltb (nabs X) _ then _ else X]big1 => [|l _]; last exact: Z.
by case: ifP.
Qed.
Lemma canonicalize_kR (F : realFieldType) part nx np (M : mmat F) q c : canonicalize part nx np M q = Some c ->
  exists Kb, forall i j, kR c i j = qR q (ix Kb i) j.
Proof.
rewrite /canonicalize; case: moveLeftIf => Kb1 nbs; case: moveLeftIf => Kn1 nns; case: ifP => // _.
by case: moveLeftIf => Kbs nbe; case: moveLeftIf => Kns nne [<-]; eexists.
Qed.
Lemma err_update0 (F : realFieldType) nx np nw nbs (Fx Fp wbs x xl xu : rawvec F) ju jbs :
  (forall i, (i < nx)%N -> Fx i = 0 \/ (In i jbs /\ (x i = xl i \/ x i = xu i))) ->
  (forall k, (k < np)%N -> Fp k = 0) -> (forall i, (i < nbs)%N -> wbs i = 0) ->
  @err_update F (Num_rf F) nx np nw nbs Fx Fp wbs x xl xu ju jbs = 0.
Proof.
move=> H1 H2 H3; rewrite /err_update /err_max !rf_max !norminf_eq0 ?maxxx //.
- by move=> i _; rewrite /err_ewbar; case: Nat.ltb_spec => [/ssrnat.ltP /H3 ->|//]; rewrite /= normr0.
- by move=> k /H2; rewrite /err_ep /= => ->; rewrite normr0.
- move=> i ix; rewrite /err_ex /=; case: (contains i ju); first by do ?case: ifP.
  case: (H1 i ix) => [->|[/contains_In ->]]; first by rewrite normr0; do ?case: ifP.
  by rewrite /= => -[/eqP -> | /eqP ->]; [case: ifP|].
Qed.
Theorem C45_bound_optimality_refuted : forall F : realFieldType, exists r (y : mvec F),
  [/\ rf_update libstdcxx_partition 2 0 1 0 (d45 F) (e45 F) (W45 F) (W45 F) (q45 F) (u45 F) = Some r,
      rerror r = 0,
      let s := lagrangian 1 0 (e45 F) (W45 F) (u45 F) 0 in mx (u45 F) 0%N = dxl (d45 F) 0%N /\ s < 0,
      constraint_left 2 0 1 (d45 F) (e45 F) (W45 F) (W45 F) y 0 = 0 /\ (forall i, (i < 2)%N -> dxl (d45 F) i <= mx y i <= dxu (d45 F) i)
    & \sum_(i < 2) eg (e45 F) i * mx y i < \sum_(i < 2) eg (e45 F) i * mx (u45 F) i].
Proof.
move=> F; have [r E] := C43_case F; exists r, (MVec (fun i => if i is O then 1 else -1) (zer F) (zer F)).
have [EM CV ->] := rf_update_view libstdcxx_contract (@q45_echelon F) E.
have N1 : (-1 : F) < 0 by rewrite ltr_oppl oppr0 ltr01.
split=> //; last 1 first.
- by rewrite !big_ord_recl !big_ord0 /= !mulr1 !mulr0 mul0r !addr0.
- apply: err_update0 => //.
  + case=> [|[|i]] // _; [right | left].
      by split; [apply: Permutation_in (cv_basic CV) _; left | left].
    rewrite /rv_ax; case: ifP => // _.
    by rewrite EM big_ord1 big_ord0 /= /zer mulr0 !addr0 oppr0.
  + move=> i ib; rewrite /rv_awbs multiplyClean0 //; last first.
      by case=> // _; rewrite /rv_awstar /= /zer big1 ?subr0 ?mulr0 // => k _; rewrite mulr0.
    by rewrite /= /zer big_ord0 big1 ?addr0 ?subrr // => k _; rewrite mulr0.
- by rewrite /lagrangian big_ord1 /= /zer mulr0 addr0.
- split; first by rewrite /constraint_left /= /zer !big_ord_recl !big_ord0 /= /W45 !mul1r !addr0 subrr !subr0.
  by case=> [|[|]] //= _; rewrite ?lexx ?ler01 ?(ltW N1).
Qed.
Print Assumptions C45_bound_optimality_refuted.

(** ** C46.  When every row of the constraints can be recovered from the combined rows
    (K*R = 1: the constraints are linearly independent), a small error bounds all of them ... *)
Theorem C46_all_constraints_partial : forall (F : realFieldType) part (nx np ny nz : nat) (d : pdata F) (e : evals F) Wx Wp q u r (K : rawmx F),
  partition_contract part -> echelon_of nx np (ny + nz) e Wx Wp q ->
  rf_update part nx np ny nz d e Wx Wp q u = Some r ->
  (forall l l', (l < ny + nz)%N -> (l' < ny + nz)%N -> \sum_(i < length (qjb q)) K l i * kR (rc r) i l' = (l == l')%:R) ->
  forall l, (l < ny + nz)%N ->
  `|constraint_left nx np ny d e Wx Wp u l| <=
    \sum_(i < length (qjb q)) `|K l i| * (rerror r + roundoff ny nz (kR (rc r)) (rv_awstar np ny d e (rM r) (rc r) u) i).
Proof.
move=> F part nx np ny nz d e Wx Wp q u r K HC HE E HK l lw.
have [_ _ H] := rf_update_bounds HC HE E; have [_ CV _] := rf_update_view HC HE E.
have nb : length (qjb q) = (knbe (rc r) + knbi (rc r))%N.
  by have [lb _ _] := cv_sizes CV; rewrite (Permutation_length (cv_basic CV)) lb.
have -> : constraint_left nx np ny d e Wx Wp u l = \sum_(i < length (qjb q)) K l i * combined nx np ny nz d e Wx Wp u (kR (rc r)) i.
  under eq_bigr do rewrite /combined mulr_sumr.
  rewrite exchange_big /=.
  under eq_bigr => l' _. under eq_bigr do rewrite mulrA. rewrite -mulr_suml HK //. over.
  rewrite (bigD1 (Ordinal lw)) //= eqxx mul1r big1 ?addr0 // => l' /eqP ne.
  by case: eqP => [e'|]; [case: ne; apply: val_inj | rewrite mul0r].
apply: le_trans (ler_norm_sum _ _ _) _; apply: ler_sum => i _; rewrite normrM.
by apply: ler_wpmul2l; [apply: normr_ge0 | apply: H; rewrite -nb].
Qed.
Print Assumptions C46_all_constraints_partial.

(** ... but a violated constraint that depends linearly on the others goes unnoticed:
    x = 0 and x = 1 are both required, x = 0 gets error 0. *)
Section Dependent.
Variable F : realFieldType.
Definition d46 : pdata F := PData (fun l => if l is O then 0 else 1) (fun _ => -1) (fun _ => 2%:R).
Definition e46 : evals F := Evals (zer F) (fun _ _ => 0) (fun _ _ => 0) (zer F) (zer F) (fun _ _ => 0) (fun _ _ => 0).
Definition q46 : rwq F := RWQ (fun _ l => (l == 0%N)%:R) (fun _ _ => 0) (fun _ _ => 0) [:: 0%N] [::].
Lemma q46_echelon : echelon_of 1 0 (2 + 0) e46 (W45 F) (W45 F) q46.
Proof.
move=> ju; split; [exact: Permutation_refl | | | ] => -[|i] [|k] // _ _.
by rewrite !big_ord_recl big_ord0 /= !mulr1 !addr0.
Qed.
End Dependent.
Theorem C46_all_constraints_refuted : forall F : realFieldType, exists r,
  [/\ rf_update libstdcxx_partition 1 0 2 0 (d46 F) (e46 F) (W45 F) (W45 F) (q46 F) (u45 F) = Some r,
      rerror r = 0 & constraint_left 1 0 2 (d46 F) (e46 F) (W45 F) (W45 F) (u45 F) 1 = 1].
Proof.
move=> F; have [r [E _]] := C68_update_total (d46 F) (u45 F) libstdcxx_contract (@q46_echelon F); exists r.
have [EM CV EE] := rf_update_view libstdcxx_contract (@q46_echelon F) E.
have [Kb HR] : exists Kb, forall i j, kR (rc r) i j = qR (q46 F) (ix Kb i) j.
  by move: E; rewrite /rf_update; case C: canonicalize => [c|//] [<-] /=; apply: canonicalize_kR C.
split=> //; last by rewrite /constraint_left /= /zer big_ord1 big_ord0 mulr0 !subr0.
rewrite EE; apply: err_update0 => //.
- case=> // _; left; rewrite /rv_ax; case: ifP => // _.
  by rewrite EM !big_ord_recl !big_ord0 /= /zer !mulr0 !addr0 oppr0.
- move=> i ib; rewrite /rv_awbs multiplyClean0 //; last first.
    case=> [|[|//]] _; rewrite HR /= ?mul0r // /rv_awstar /= big1 ?subr0 ?mulr0 // => k _; rewrite /zer mulr0 //.
  by rewrite /= /zer big_ord0 big1 ?addr0 ?subrr // => k _; rewrite mulr0.
Qed.
Print Assumptions C46_all_constraints_refuted.

(** The problem of C45 has independent constraints and meets the hypotheses of C43, C45, C46. *)
Example C46_case (F : realFieldType) : exists r,
  [/\ rf_update libstdcxx_partition 2 0 1 0 (d45 F) (e45 F) (W45 F) (W45 F) (q45 F) (u45 F) = Some r, rerror r < 1,
      ~ In 1%N (qjb (q45 F))
    & forall l l', (l < 1 + 0)%N -> (l' < 1 + 0)%N -> \sum_(i < length (qjb (q45 F))) W45 F l i * kR (rc r) i l' = (l == l')%:R].
Proof.
have [r [y [E z _ _ _]]] := C45_bound_optimality_refuted F; exists r; split=> //; first by rewrite z ltr01.
- by case=> //= -[].
- have [Kb HR] : exists Kb, forall i j, kR (rc r) i j = qR (q45 F) (ix Kb i) j.
    by move: E; rewrite /rf_update; case C: canonicalize => [c|//] [<-] /=; apply: canonicalize_kR C.
  by case=> // -[] // _ _; rewrite big_ord1 HR mulr1.
Qed.
