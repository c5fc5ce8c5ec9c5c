(** Proofs for C76: approximate KKT points have a small error. *)
From Coq Require Import List PeanoNat Permutation Lia.
From mathcomp Require Import all_ssreflect all_algebra.
From Verif Require Import Num Num_facts Index_model Index_spec Index_proofs MatUtil_model Num_rf LU_model Linear_model Linear_spec Canonical_model Canonical_spec Canonical_proofs.
From Verif Require Import ResErr_model Residual_model Residual_spec Residual_proofs P_Residual.
Set Implicit Arguments.
Unset Strict Implicit.
Unset Printing Implicit Defensive.
Import Order.TTheory GRing.Theory Num.Theory.
Local Open Scope ring_scope.
#[local] Existing Instance Num_rf.

Section Accept.
Variables (F : realFieldType) (part : partition_impl) (nx np ny nz : nat).
Let nw := (ny + nz)%N.
Variables (d : pdata F) (e : evals F) (Wx Wp : rawmx F) (q : rwq F) (u : mvec F).
Hypothesis HC : partition_contract part.
Hypothesis HE : echelon_of nx np nw e Wx Wp q.
Let st := rf_stability part nx ny nz d e Wx (qjb q) u.

Lemma norminf_lt n (v : rawvec F) tol : 0 < tol -> (forall i, (i < n)%N -> `|v i| < tol) -> @norminf F (Num_rf F) n v < tol.
Proof.
move=> t0 Z; rewrite /norminf; case: Nat.eqb_spec => [//|n0].
have n0' : (0 < n)%N by case: n n0 Z.
have : forall k, In k (List.seq 0 n) -> `|v k| < tol by move=> k; rewrite in_seq => -[_ /ssrnat.ltP kn]; apply: Z.
have : nabs (v 0%N) < tol by apply: Z.
rewrite /maxAbs1; move: (nabs (v 0%N)); elim: (List.seq 0 n) => [//|x l IH] a Ha H /=.
apply: IH; last by move=> k kl; apply: H; right.
by rewrite rf_max lt_maxl Ha /=; apply: H; left.
Qed.

(** with at least one basic variable, every nonbasic variable on a bound with a multiplier
    of the right sign is found *)
Lemma rf_ju_all j : qjb q <> [::] -> (j < nx)%N -> ~ In j (qjb q) ->
  (mx u j = dxl d j /\ 0 < lagrangian ny nz e Wx u j) \/ (mx u j = dxu d j /\ lagrangian ny nz e Wx u j < 0) -> In j (status_ju st).
Proof.
move=> E0 jx jb.
have [ND RG] := jb_nodup HE.
have RG' i : In i (qjb q) -> (i < length (vlist nx (mx u)))%coq_nat by move/RG/ssrnat.ltP; rewrite length_vlist.
have [_ [P [EU [_ [HL [HU _]]]]]] := @stability_update_correct F (Num_rf F) (@rf_asym F) part HC (mlist nw nx Wx) (vlist nx (eg e)) (vlist nx (mx u)) (vlist nw (mw u)) (vlist nx (dxl d)) (vlist nx (dxu d)) (qjb q) E0 ND RG'.
rewrite -/(rf_stability part nx ny nz d e Wx (qjb q) u) -/st length_vlist in P EU HL HU.
have L i (v : rawvec F) : (i < nx)%N -> List.nth i (vlist nx v) nzero = v i by apply: nth_vlist.
have S : List.nth j (@stab_s F (Num_rf F) (mlist nw nx Wx) (vlist nx (eg e)) (vlist nw (mw u))) nzero = lagrangian ny nz e Wx u j.
  exact: stab_s_rf.
have jx' : (j < nx)%coq_nat by apply/ssrnat.ltP.
rewrite EU => -[[H1 H2]|[H1 H2]]; apply: in_or_app; [left; apply/HL | right; apply/HU]; split=> //; split=> //; rewrite !L // S; split=> //; exact/eqP.
Qed.

Lemma small_error r tol : rf_update part nx np ny nz d e Wx Wp q u = Some r -> 0 < tol ->
  qjb q <> [::] \/ (forall i, (i < nx)%N -> `|lagrangian ny nz e Wx u i| < tol) ->
  (forall i, (i < nx)%N -> kkt_x ny nz d e Wx u tol i \/ (In i (qjb q) /\ on_bound d u i)) ->
  (forall k, (k < np)%N -> `|ev e k| < tol) ->
  (forall i, (i < length (qjb q))%N -> `|combined nx np ny nz d e Wx Wp u (kR (rc r)) i|
      + roundoff ny nz (kR (rc r)) (rv_awstar np ny d e (rM r) (rc r) u) i < tol) ->
  rerror r < tol.
Proof.
move=> E t0 J0 H1 H2 H3; have [EM CV EE] := rf_update_view HC HE E.
rewrite EE /err_update /err_max !rf_max !lt_maxl; apply/andP; split; first (apply/andP; split).
- apply: norminf_lt => // i ix.
  have U : `|rv_ax ny nz e (rM r) (rc r) u i| < tol \/ In i (kju (rc r)) \/ (In i (kjb (rc r)) /\ on_bound d u i).
    have [iu|iu] := in_dec Nat.eq_dec i (kju (rc r)); first by right; left.
    have iju : ~ In i (status_ju st) by move=> H; apply: iu; apply/(cv_unstable CV); rewrite EM.
    have [ib|ib] := in_dec Nat.eq_dec i (qjb q).
      case: (H1 i ix) => [[H|H]|[_ H]]; [left| right; right | right; right].
      + by rewrite (ax_stable _ _ _ _ _ ix iu) normrN EM.
      + split; first exact: Permutation_in (cv_basic CV) ib.
        by case: H => -[H _]; [left|right].
      + by split; first exact: Permutation_in (cv_basic CV) ib.
    case: J0 => [J0|J0]; last by left; rewrite (ax_stable _ _ _ _ _ ix iu) normrN EM; apply: J0.
    case: (H1 i ix) => [[H|H]|[H _]] //; last by case: iju; apply: rf_ju_all.
    by left; rewrite (ax_stable _ _ _ _ _ ix iu) normrN EM.
  rewrite /err_ex.
  case: U => [H|[H|[H1' H2']]].
  + by do ?case: ifP; rewrite /nzero /= ?normr0 // normr_id.
  + by rewrite (proj2 (contains_In _ _) H); do ?case: ifP; rewrite /nzero /= ?normr0.
  + rewrite (proj2 (contains_In _ _) H1') /=.
    by case: H2' => <-; rewrite eqxx; do ?case: ifP; rewrite /nzero /= ?normr0.
- by apply: norminf_lt => // k kp; rewrite /err_ep /rv_ap /= normr_id normrN; apply: H2.
- apply: norminf_lt => // i iw; rewrite /err_ewbar; case: Nat.ltb_spec => [/ssrnat.ltP ib|_]; last by rewrite /nzero /= normr0.
  rewrite /= normr_id.
  have ib' : (i < length (qjb q))%N by rewrite (Permutation_length (cv_basic CV)); have [-> _ _] := cv_sizes CV.
  apply: le_lt_trans (H3 i ib').
  have EX : mWx (rM r) = Wx by rewrite EM.
  have EP : mWp (rM r) = Wp by rewrite EM.
  have := awbs_close d e u CV ib; rewrite EX EP.
  move=> H; rewrite -[X in `|X|](subrK (combined nx np ny nz d e Wx Wp u (kR (rc r)) i)).
  by rewrite addrC; apply: le_trans (ler_norm_add _ _) _; rewrite ler_add2l.
Qed.
End Accept.

Lemma canonicalize_rows (F : realFieldType) part nx np (M : mmat F) q c : partition_contract part -> canonicalize part nx np M q = Some c ->
  forall i, (i < length (qjb q))%N -> exists2 k, (k < length (qjb q))%N & kR c i = qR q k.
Proof.
move=> HC; rewrite /canonicalize.
case E1: (moveLeftIf part (indices (length (qjb q))) _) => [Kb1 nbs]; case: moveLeftIf => Kn1 nns; case: ifP => // _.
case E3: (moveLeftIf part (firstn nbs Kb1) _) => [Kbs nbe]; case: moveLeftIf => Kns nne [<-] i il /=.
have [PB _ _ _ _] := two_stage HC E1 E3.
have lb := Permutation_length PB; rewrite seq_length in lb.
exists (ix (Kbs ++ skipn nbs Kb1) i) => //.
have : In (ix (Kbs ++ skipn nbs Kb1) i) (indices (length (qjb q))).
  by apply: Permutation_in (Permutation_sym PB) _; apply: nth_In; rewrite -lb; apply/ssrnat.ltP.
by rewrite in_seq => -[_ /ssrnat.ltP].
Qed.
