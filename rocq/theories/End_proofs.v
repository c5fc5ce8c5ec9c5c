(** Proofs for C75 and C76: the calculation as a whole. *)
From Coq Require Import List PeanoNat Permutation Reals Lra Lia.
From mathcomp Require Import all_ssreflect all_algebra.
From Verif Require Import Num Num_facts Index_model Index_spec Index_proofs MatUtil_model Num_rf R_rf LU_model Linear_model Linear_spec Canonical_model Canonical_spec Canonical_proofs.
From Verif Require Import ResErr_model Residual_model Residual_spec Residual_proofs P_Residual Accept_proofs.
From Verif Require Import Loop_model Loop_spec Loop_proofs P_Loop Wrapper_model Wrapper_spec Wrapper_proofs End_model End_spec Near_proofs.
Set Implicit Arguments.
Unset Strict Implicit.
Unset Printing Implicit Defensive.
Import Order.TTheory GRing.Theory Num.Theory.
Local Open Scope ring_scope.

Lemma sum_big n (f : nat -> R) : \sum_(i < n) (f i : RF) = Wrapper_spec.sum n f.
Proof. by elim: n => [|n IH]; rewrite ?big_ord0 // big_ord_recr /= IH. Qed.
Lemma finite_map l : finite (List.map XF l) = Some l.
Proof. by elim: l => //= a l ->. Qed.
Lemma finite_some l v : finite l = Some v -> l = List.map XF v.
Proof. by elim: l v => [|[r| | |] l IH] v //=; [case=> <- | case: (finite l) IH => // v' /(_ _ erefl) -> [<-]]. Qed.

Section Near.
Variables (part : partition_impl) (M : master R xreal).
Let nx := ms_nx M. Let np := ms_np M. Let nyM := ms_ny M. Let nzM := ms_nz M.
Hypothesis HC : partition_contract part.
Variables (x p w : list R).
Let d := m_data M x.
Let e := m_evals M x p.
Let Wx := m_Wx M x p. Let Wp := m_Wp M x p.
Let u := MVec (vec x : rawvec RF) (vec p : rawvec RF) (vec w : rawvec RF).
Variable q : rwq RF.
Hypothesis HE : echelon_of nx np (nyM + nzM) e Wx Wp q.

Lemma ltbE a b : Nat.ltb a b = (a < b)%N.
Proof. by apply/Nat.ltb_spec0/idP => /ssrnat.ltP. Qed.
Lemma Wx_spec l j : Wx l j = cWx M x p l j. Proof. by rewrite /cWx ltbE. Qed.
Lemma Wp_spec l j : Wp l j = cWp M x p l j. Proof. by rewrite /cWp ltbE. Qed.

Lemma lagrangian_spec j : lagrangian nyM nzM e Wx u j =
  o_fx (ovalue (ms_f M) x p (ms_c M)) j
      + Wrapper_spec.sum nyM (fun i => mget (ms_Ax M) i j * at_ w i)
      + Wrapper_spec.sum nzM (fun i => c_ddx (value (ms_h M) x p (ms_c M)) i j * at_ w (nyM + i)%coq_nat).
Proof.
rewrite /lagrangian (sum_big (nyM + nzM) (fun l => Wx l j * vec w l)) sum_split -R_addE addrA.
congr (_ + _ + _); apply: sum_ext => i /ssrnat.ltP iN; rewrite /Wx /m_Wx -/nyM ?iN //.
rewrite ltnNge leq_addr /= -[(nyM + i)%coq_nat]/(nyM + i)%N addKn //.
Qed.
Lemma left_spec l : constraint_left nx np nyM d e Wx Wp u l = cleft M x p l.
Proof.
rewrite /constraint_left /cleft ltbE -/nyM; case: ifP => [lt|_] //.
rewrite /Wrapper_spec.lin /Rminus -R_oppE -!R_addE opprD addrA.
rewrite (sum_big nx (fun j => Wx l j * vec x j)) (sum_big np (fun k => Wp l k * vec p k)).
congr (_ - _ - _); apply: sum_ext => j _; [rewrite /Wx /m_Wx | rewrite /Wp /m_Wp]; by rewrite -/nyM lt.
Qed.

Lemma cmag_ge r l : rf_update part nx np nyM nzM d e Wx Wp q u = Some r ->
  `|rv_awstar np nyM d e (rM r) (rc r) u l| <= (cmag M x p l : RF).
Proof.
move=> /(rf_update_view HC HE) [EM CV _].
have SJ (f : nat -> RF) : \sum_(j < nx) `|f j| = \sum_(j <- kjs (rc r)) `|f j| + \sum_(j <- kju (rc r)) `|f j|.
  exact: (sum_js_ju CV (fun j => `|f j|)).
have S1 : Wrapper_spec.sum nx (fun j => Rmult (Rabs (cWx M x p l j)) (Rabs (at_ x j))) = \sum_(j < nx) `|Wx l j * mx u j|.
  by rewrite (sum_big nx (fun j => `|Wx l j * mx u j|)); apply: sum_ext => j _; rewrite normrM Wx_spec.
have S2 : Wrapper_spec.sum np (fun k => Rmult (Rabs (cWp M x p l k)) (Rabs (at_ p k))) = \sum_(k < np) `|Wp l k * mp u k|.
  by rewrite (sum_big np (fun k => `|Wp l k * mp u k|)); apply: sum_ext => j _; rewrite normrM Wp_spec.
rewrite /cmag -/nx -/np S1 S2 -!R_addE (SJ (fun j => Wx l j * mx u j)) /rv_awstar EM /= /ctarget ltbE -/nyM.
have P2 : 0 <= \sum_(k < np) `|Wp l k * mp u k| by apply: sumr_ge0.
have P1 (js : seq nat) : 0 <= \sum_(j <- js) `|Wx l j * mx u j| by apply: sumr_ge0.
case: ifP => _.
- apply: le_trans (ler_norm_sub _ _) _; rewrite -addrA ler_add // -[X in X <= _]addr0 ler_add //.
  by apply: le_trans (ler_norm_sum _ _ _) _; rewrite ler_addr.
- apply: le_trans (ler_norm_sub _ _) _; rewrite addrC -!addrA ler_add //.
  apply: le_trans (ler_norm_add _ _) _; apply: ler_add; first exact: ler_norm_sum.
  by apply: le_trans (ler_norm_sum _ _ _) _; rewrite ler_addr.
Qed.

Lemma bnum_bound b r : r = bnum b r -> b = XF r.
Proof. by case: b => [s /= ->| | |] //= => E; exfalso; lra. Qed.

Lemma eps_spec : ((2 ^+ 52)^-1 : RF) = Rinv (pow 2 52).
Proof.
have P (k : nat) : (2 ^+ k : RF) = pow 2 k.
  by elim: k => [|k IH]; [rewrite expr0 | rewrite exprS IH].
have NZ : pow 2 52 <> R0 by apply: pow_nonzero; lra.
have NZ' : (2 ^+ 52 : RF) != 0 by rewrite P; apply/eqP.
apply: (mulfI NZ'); rewrite mulfV // P; symmetry; exact: Rinv_r.
Qed.

Lemma kR_inverts r : rf_update part nx np nyM nzM d e Wx Wp q u = Some r -> inverts M x p (kjb (rc r)) (kR (rc r)).
Proof.
move=> /(rf_update_view HC HE) [EM CV _] i k /ssrnat.ltP il /ssrnat.ltP kl.
have [_ H _ _] := cv_echelon CV; have := H i k il kl; rewrite EM /=.
have -> : (if Nat.eqb i k then R1 else R0) = ((i == k)%:R : RF).
  by case: (Nat.eqb_spec i k) => [->|/eqP/negbTE ->]; rewrite ?eqxx.
move=> <-; rewrite (sum_big (nyM + nzM) (fun l => kR (rc r) i l * Wx l (ix (kjb (rc r)) k))).
by apply: sum_ext => l _; rewrite -Wx_spec.
Qed.

Lemma kR_right r : rf_update part nx np nyM nzM d e Wx Wp q u = Some r -> length (kjb (rc r)) = (nyM + nzM)%N ->
  forall l l', (l < nyM + nzM)%N -> (l' < nyM + nzM)%N ->
  \sum_(i < length (qjb q)) Wx l (ix (kjb (rc r)) i) * kR (rc r) i l' = (l == l')%:R.
Proof.
move=> /(rf_update_view HC HE) [EM CV _] len l l' ll ll'.
have [_ H _ _] := cv_echelon CV; rewrite EM /= in H.
pose A := \matrix_(i < nyM + nzM, k < nyM + nzM) kR (rc r) i k.
pose B := \matrix_(i < nyM + nzM, k < nyM + nzM) Wx i (ix (kjb (rc r)) k).
have AB : A *m B = 1%:M.
  apply/matrixP => i k; rewrite !mxE -[i == k]/((i : nat) == k).
  by rewrite -H ?len //; apply: eq_bigr => j _; rewrite !mxE.
have := congr1 (fun X : 'M_(nyM + nzM) => X (Ordinal ll) (Ordinal ll')) (mulmx1C AB).
rewrite !mxE => <-; rewrite (Permutation_length (cv_basic CV)) len.
by apply: eq_bigr => j _; rewrite !mxE.
Qed.

Lemma update_near r tol : rf_update part nx np nyM nzM d e Wx Wp q u = Some r -> Rlt (rerror r) tol ->
  within (ms_xlower M) (ms_xupper M) x -> within (ms_plower M) (ms_pupper M) p ->
  master_near M x p tol (kjb (rc r)) w.
Proof.
move=> E lt wx wp.
have [B1 B2 _] := rf_update_bounds HC HE E; have [EM CV _] := rf_update_view HC HE E.
have [PE _ _ _] := cv_echelon CV.
split; [exact: wx | split; [exact: wp |]].
split; [|split; [|split]].
- move=> j /ssrnat.ltP jn.
  set s := (X in near_stationary tol X _ _ _); have -> : s = lagrangian nyM nzM e Wx u j by symmetry; exact: lagrangian_spec.
  case: (B1 j jn) => [H|[[H1 H2]|[[H1 H2]|[H1 H2]]]].
  + by left; left; apply: Rle_lt_trans lt; apply/R_leP.
  + by left; right; left; split; [apply: bnum_bound | apply/R_ltP].
  + by left; right; right; split; [apply: bnum_bound | apply/R_ltP].
  + right; split; first exact: Permutation_in (cv_basic CV) H1.
    by case: H2 => H2; [left | right]; apply: bnum_bound.
- by move=> k /ssrnat.ltP kn; apply: Rle_lt_trans lt; apply/R_leP; apply: B2.
- split.
    by have := Permutation_NoDup PE (seq_NoDup _ _); apply: NoDup_app_l.
  move=> j jb; have : In j (indices nx) by apply: Permutation_in (Permutation_sym PE) _; apply: in_or_app; left.
  by rewrite in_seq => -[].
- move=> len; exists (kR (rc r)); split; first exact: kR_inverts.
  move=> l /ssrnat.ltP ll; rewrite -left_spec.
  have H := C46_all_constraints_partial (K := fun l i => Wx l (ix (kjb (rc r)) i)) HC HE E (kR_right E len) ll.
  apply/R_leP; apply: le_trans H _.
  rewrite (Permutation_length (cv_basic CV)).
  pose g i := `|Wx l (ix (kjb (rc r)) i)| * (tol + (2 ^+ 52)^-1 * \sum_(k < nyM + nzM) `|kR (rc r) i k| * (cmag M x p k : RF)).
  have -> : allowed M x p tol (kjb (rc r)) (kR (rc r)) l = \sum_(i < length (kjb (rc r))) (g i : RF).
    rewrite (sum_big _ g); apply: sum_ext => i _; rewrite /g -Wx_spec eps_spec.
    by rewrite (sum_big (nyM + nzM) (fun k => `|kR (rc r) i k| * (cmag M x p k : RF))).
  apply: ler_sum => i _; apply: ler_wpmul2l => //; apply: ler_add; first by apply/R_leP; lra.
  apply: ler_wpmul2l; first by rewrite invr_ge0; apply: exprn_ge0; apply: ler0n.
  by apply: ler_sum => k _; apply: ler_wpmul2l => //; apply: cmag_ge.
Qed.

Lemma kkt_small r tol : rf_update part nx np nyM nzM d e Wx Wp q u = Some r -> Rlt R0 tol ->
  qjb q <> [::] \/ (forall j, (j < nx)%coq_nat -> cgrad M x p w j = R0) ->
  master_kkt M x p w -> (forall i, (i < length (qjb q))%coq_nat -> Rlt (row_room M x p (qR q) i) tol) -> Rlt (rerror r) tol.
Proof.
move=> E t0 J0 [[K1 [K2 [K3 _]]] K4] RO; apply/R_ltP.
have t0' : 0 < (tol : RF) by apply/R_ltP.
apply: (small_error HC HE E) => //.
- case: J0 => [J0|J0]; [by left | right => i /ssrnat.ltP il].
  by rewrite lagrangian_spec [X in `|X|](J0 i il) normr0.
- move=> i /ssrnat.ltP il; left.
  have := K4 i il; set s := (X in stationary X); have -> : s = lagrangian nyM nzM e Wx u i by symmetry; exact: lagrangian_spec.
  rewrite /kkt_x; case=> [->|[[Eb S]|[Eb S]]]; first by left; rewrite normr0.
  + case: (Rle_lt_or_eq_dec _ _ (Rge_le _ _ S)) => [H|<-]; last by left; rewrite normr0.
    by right; left; split; [rewrite /bd in Eb; rewrite /= Eb | apply/R_ltP].
  + case: (Rle_lt_or_eq_dec _ _ S) => [H|->]; last by left; rewrite normr0.
    by right; right; split; [rewrite /bd in Eb; rewrite /= Eb | apply/R_ltP].
- by move=> k /ssrnat.ltP kn; rewrite [ev _ _](K3 k kn) normr0.
- move=> i il.
  have CL l : (l < nyM + nzM)%N -> constraint_left nx np nyM d e Wx Wp u l = 0.
    move=> ll; rewrite left_spec /cleft; case: Nat.ltb_spec => H; first by rewrite K1 // Rminus_eq_0.
    have Hz : (l - ms_ny M < ms_nz M)%coq_nat by move/ssrnat.ltP: ll; rewrite -plusE -minusE /nyM /nzM; lia.
    by rewrite -[(l - ms_ny M)%coq_nat]/(l - ms_ny M)%N (K2 _ Hz) Ropp_0.
  rewrite /combined big1 ?normr0 ?add0r; last by move=> l _; rewrite CL ?mulr0.
  have [k kl Ek] : exists2 k, (k < length (qjb q))%N & kR (rc r) i = qR q k.
    by move: (E); rewrite /rf_update; case C: canonicalize => [c|//] [<-] /=; apply: (canonicalize_rows HC C).
  have /R_ltP H := RO k (elimT ssrnat.ltP kl).
  apply: le_lt_trans H; rewrite /roundoff /row_room Ek -eps_spec.
  rewrite -(sum_big (nyM + nzM) (fun l => `|qR q k l| * (cmag M x p l : RF))).
  apply: ler_wpmul2l; first by rewrite invr_ge0; apply: exprn_ge0; apply: ler0n.
  by apply: ler_sum => l _; apply: ler_wpmul2l => //; apply: cmag_ge.
Qed.
End Near.

(** EchelonizerW as proved in C67: whatever the weights and the state *)
Definition ech_contract (M : master R xreal) E (ech : E -> rawmx RF -> rawmx RF -> rawvec RF -> E * rwq RF) : Prop :=
  forall a x p wt, echelon_of (ms_nx M) (ms_np M) (ms_ny M + ms_nz M) (m_evals M x p) (m_Wx M x p) (m_Wp M x p) (ech a (m_Wx M x p) (m_Wp M x p) wt).2.

Lemma nth_XF l i : (i < length l)%coq_nat -> List.nth i (List.map XF l) nzero = XF (at_ l i).
Proof. by move=> H; rewrite (List.nth_indep _ _ (XF R0)) ?List.map_length // List.map_nth. Qed.

Lemma inbox_within lo hi l : length lo = length l -> length hi = length l ->
  Loop_spec.within lo (List.map XF l) hi -> Wrapper_spec.within lo hi l.
Proof.
move=> L1 L2 H i il; case: (H i); rewrite ?List.map_length // nth_XF //.
by rewrite /bd !(List.nth_indep _ XNaN nzero) ?L1 ?L2.
Qed.

Lemma weights_spec M x : weights_at M x (rf_weight (m_data M x) (vec x)).
Proof.
move=> j _; rewrite /rf_weight /=; split=> [[] H|H].
- by rewrite /bd in H; rewrite H /= eqxx.
- by rewrite /bd in H; rewrite H /= eqxx andbF.
- have N b : b = bd (ms_xlower M) j \/ b = bd (ms_xupper M) j -> (vec x j == bnum b (vec x j) :> RF) = false.
    move=> Hb; apply/eqP => /bnum_bound E; apply: H; rewrite /at_bound -[at_ x j]/(vec x j) -E.
    by case: Hb => ->; [left | right].
  by rewrite !N; [| right | left].
Qed.

Lemma w_update_fin part M E ech nonfinite w0 x p y :
  partition_contract part -> ech_contract M ech ->
  exists q r, [/\ exists a wt, weights_at M x wt /\ q = (ech a (m_Wx M x p) (m_Wp M x p) wt).2, echelon_of (ms_nx M) (ms_np M) (ms_ny M + ms_nz M) (m_evals M x p) (m_Wx M x p) (m_Wp M x p) q,
    rf_update part (ms_nx M) (ms_np M) (ms_ny M) (ms_nz M) (m_data M x) (m_evals M x p) (m_Wx M x p) (m_Wp M x p) q (MVec (vec x) (vec p) (vec y)) = Some r,
    w_res (@w_update part M E ech nonfinite w0 (UVec (List.map XF x) (List.map XF p) (List.map XF y))) = Some r &
    w_err (@w_update part M E ech nonfinite w0 (UVec (List.map XF x) (List.map XF p) (List.map XF y))) = XF (rerror r)].
Proof.
move=> HC HE; rewrite /w_update /ux /up /uw !finite_map.
have := HE (w_e w0) x p (rf_weight (m_data M x) (vec x)).
case EQ: (ech _ _ _ _) => [a q] /= HQ.
have [r [Er _]] := C68_update_total (m_data M x) (MVec (vec x) (vec p) (vec y)) HC HQ.
exists q, r; rewrite Er; split=> //.
by exists (w_e w0), (rf_weight (m_data M x) (vec x)); rewrite EQ; split=> //; exact: weights_spec.
Qed.

Lemma solve_near part M E ech nonfinite newton phi fuel o (w0 : world E) hist u r s tol x p w :
  partition_contract part -> ech_contract M ech -> good_bounds (ms_nx M) (ms_np M) (m_bounds M) ->
  length x = ms_nx M -> length p = ms_np M ->
  @m_solve part M E ech nonfinite newton phi None fuel o w0 hist u = Some (r, s) -> r_succeeded r ->
  o_tol o = XF tol -> s_u s = UVec (List.map XF x) (List.map XF p) (List.map XF w) ->
  exists rr, w_res (s_w s) = Some rr /\ master_near M x p tol (kjb (rc rr)) w /\
    exists a wt, weights_at M x wt /\ Permutation (qjb (ech a (m_Wx M x p) (m_Wp M x p) wt).2) (kjb (rc rr)).
Proof.
move=> HC HE HB Lx Lp S OK TOL US.
have [[w' Ew] [Ee /(_ OK) CR]] := @C49_success_sound _ _ _ _ _ _ _ _ _ _ _ _ _ _ _ _ S.
have [_ [IX IP]] := @C47_bounds _ _ _ _ _ _ _ _ _ _ _ _ _ _ _ _ _ _ _ HB S.
have [q [rr [[a [wt [WT EQ]]] HQ RU R1 R2]]] := w_update_fin nonfinite w' x p w HC HE.
have {}R1 : w_res (s_w s) = Some rr by rewrite Ew US.
have {}R2 : w_err (s_w s) = XF (rerror rr) by rewrite Ew US.
have [B1 [B2 [B3 B4]]] := HB.
rewrite US /= in IX IP.
exists rr; split=> //; split; last by exists a, wt; split=> //; rewrite -EQ; have [_ CV _] := rf_update_view HC HQ RU; exact: cv_basic CV.
apply: (update_near HC HQ RU).
- by case: CR => [|[c [//]]]; rewrite Ee TOL R2 /= /rltb; case: Rlt_dec.
- by apply: inbox_within IX; [rewrite B1 Lx | rewrite -(Forall2_len _ _ _ B3) B1 Lx].
- by apply: inbox_within IP; [rewrite B2 Lp | rewrite -(Forall2_len _ _ _ B4) B2 Lp].
Qed.
