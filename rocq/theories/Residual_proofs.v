(** Proofs for C42-C46. *)
From Coq Require Import List PeanoNat Permutation Lia ZArith.
From mathcomp Require Import all_ssreflect all_algebra.
From Verif Require Import Num Index_model Index_spec Index_proofs MatUtil_model MatUtil_proofs Num_rf LU_model Linear_model Linear_spec Canonical_model Canonical_spec Canonical_proofs.
From Verif Require Import ResErr_model Residual_model Residual_spec.
Set Implicit Arguments.
Unset Strict Implicit.
Unset Printing Implicit Defensive.
Local Open Scope ring_scope.
Import Order.TTheory GRing.Theory Num.Theory.
Local Open Scope list_scope.
Local Notation "l ++ l'" := (List.app l l') : seq_scope.

Lemma list_iota a n : List.seq a n = iota a n.
Proof. by elim: n a => //= n IH a; rewrite IH. Qed.

Lemma stability_empty_ju {T} {N : Num T} part Wx (g x w xl xu : list T) : partition_contract part ->
  status_ju (stability_update part Wx g x w xl xu nil) = nil.
Proof.
move=> Hc; rewrite /stability_update.
rewrite -[moveIntersectionLeft _ _ _]/(indices (length x), length (indices (length x))).
have L : length (indices (length x)) = length x by rewrite seq_length.
rewrite L Nat.sub_diag Nat.sub_0_r.
case E : (moveRightIf part (firstn _ _) _) => [jbs' nss].
rewrite skipn_all2; last by rewrite L; apply: Nat.le_refl.
rewrite /moveRightIf part_nil // firstn_O part_nil //.
by rewrite /status_ju /vtail /= !app_nil_r Nat.sub_0_r skipn_all.
Qed.

#[local] Existing Instance Num_rf.
Section Fold.
Variable F : realFieldType.
Lemma big_Permutation (l l' : list nat) (f : nat -> F) : Permutation l l' -> \sum_(j <- l) f j = \sum_(j <- l') f j.
Proof.
elim=> {l l'} [//|x l l' _ IH|x y l|l l' l'' _ -> _ ->//]; first by rewrite !big_cons IH.
by rewrite !big_cons addrCA.
Qed.
Lemma big_app (l l' : list nat) (f : nat -> F) : \sum_(j <- l ++ l') f j = \sum_(j <- l) f j + \sum_(j <- l') f j.
Proof. by elim: l => [|x l IH] /=; rewrite ?big_nil ?add0r // !big_cons IH addrA. Qed.
Lemma big_indices n (f : nat -> F) : \sum_(j <- indices n) f j = \sum_(j < n) f j.
Proof. by rewrite /indices list_iota -(big_mkord xpredT f) /index_iota subn0. Qed.

Lemma dot_rf n (a b : nat -> F) : @dot F (Num_rf F) n a b = \sum_(j < n) a j * b j.
Proof.
rewrite /dot -(big_indices n (fun j => a j * b j)) /indices.
have G l acc : fold_left (fun s j => nadd s (nmul (a j) (b j))) l acc = acc + \sum_(j <- l) a j * b j.
  by elim: l acc => [|x l IH] acc /=; rewrite ?big_nil ?addr0 // IH big_cons addrA.
by rewrite G add0r.
Qed.
Lemma rf_ofZ_nat n : rf_ofZ F (Z.of_nat n) = n%:R.
Proof. by case: n => [//|n]; rewrite /rf_ofZ /= SuccNat2Pos.id_succ. Qed.
Lemma rf_ofZ_pow2 k : rf_ofZ F (Z.pow (Zpos (xO xH)) (Z.of_nat k)) = 2 ^+ k.
Proof.
have -> : (Z.pow (Zpos (xO xH)) (Z.of_nat k)) = Z.of_nat (Nat.pow 2 k) by rewrite Nat2Z.inj_pow.
rewrite rf_ofZ_nat -natrX; congr (_%:R).
by elim: k => // k IH; rewrite Nat.pow_succ_r' IH expnS.
Qed.
Lemma neps_rf : @neps F (Num_rf F) = (2 ^+ 52)^-1.
Proof.
rewrite -(rf_ofZ_pow2 52).
have -> : @neps F (Num_rf F) = rf_ofZ F (Zpos xH) / rf_ofZ F (Z.pow (Zpos (xO xH)) (Z.of_nat 52)) by [].
by rewrite -[Zpos xH]/(Z.of_nat 1) rf_ofZ_nat div1r.
Qed.
End Fold.

Section Cleaned.
Variable F : realFieldType.
Lemma clean_close m n (A : rawmx F) (x : rawvec F) i : (i < m)%N ->
  `|@multiplyClean F (Num_rf F) m n A x i - \sum_(l < n) A i l * x l| <= (2 ^+ 52)^-1 * \sum_(l < n) `|A i l| * `|x l|.
Proof.
move=> /ssrnat.ltP im; rewrite multiplyClean_pointwise // !dot_rf neps_rf.
rewrite -[\sum_(j < n) nabs _ * nabs _]/(\sum_(j < n) `|A i j| * `|x j|).
set b := \sum_(j < n) A i j * x j; set r := \sum_(j < n) (`|_| * `|_|).
have r0 : 0 <= r by apply: sumr_ge0 => j _; apply: mulr_ge0; apply: normr_ge0.
have e0 : 0 <= (2 ^+ 52)^-1 :> F by rewrite invr_ge0 exprn_ge0 // ler0n.
rewrite /=; case: ifP => [H|_]; last by rewrite subrr normr0 mulr_ge0.
by rewrite /nzero /= sub0r normrN ltW // mulrC.
Qed.
Lemma clean_exact m n (A : rawmx F) (x : rawvec F) i : (i < m)%N ->
  \sum_(l < n) A i l * x l = 0 \/ ((2 ^+ 52)^-1 * (\sum_(l < n) `|A i l| * `|x l|) <= `|\sum_(l < n) A i l * x l|)%R ->
  @multiplyClean F (Num_rf F) m n A x i = \sum_(l < n) A i l * x l.
Proof.
move=> /ssrnat.ltP im; rewrite multiplyClean_pointwise // !dot_rf neps_rf.
rewrite -[\sum_(j < n) nabs _ * nabs _]/(\sum_(j < n) `|A i j| * `|x j|).
set b := \sum_(j < n) A i j * x j; set r := \sum_(j < n) (`|_| * `|_|).
rewrite /=; case: ifP => // H [-> //|L].
by move: H; rewrite ltNge mulrC L.
Qed.
Lemma norminf_le n (v : rawvec F) i : (i < n)%N -> `|v i| <= @norminf F (Num_rf F) n v.
Proof.
move=> ij; rewrite /norminf; case: Nat.eqb_spec => [n0|_]; first by rewrite n0 in ij.
rewrite /maxAbs1.
have G l (acc : F) : acc <= fold_left (fun m i => nmax m (nabs (v i))) l acc /\
     forall k, In k l -> `|v k| <= fold_left (fun m i => nmax m (nabs (v i))) l acc.
  elim: l acc => [|x l IH] acc /=; first by split.
  have [H1 H2] := IH (nmax acc (nabs (v x))).
  have L : acc <= nmax acc (nabs (v x)) /\ `|v x| <= nmax acc (nabs (v x)).
    by rewrite rf_max; split; rewrite le_maxr lexx ?orbT.
  case: L => L1 L2; split; first exact: le_trans L1 H1.
  by move=> k [<-|kl]; [exact: le_trans L2 H1 | exact: H2].
have [_ H] := G (List.seq 0 n) (nabs (v 0%N)).
by apply: H; rewrite in_seq; move/ssrnat.ltP: ij; lia.
Qed.
Lemma norminf_eq0 n (v : rawvec F) : (forall i, (i < n)%N -> v i = 0) -> @norminf F (Num_rf F) n v = 0.
Proof.
move=> Z; rewrite /norminf; case: Nat.eqb_spec => [//|n0].
have n0' : (0 < n)%N by case: n n0 Z.
rewrite /maxAbs1 [nabs (v 0%N)](_ : _ = 0) /=; last by rewrite Z // normr0.
have : forall k, In k (List.seq 0 n) -> v k = 0 by move=> k; rewrite in_seq => -[_ /ssrnat.ltP kn]; apply: Z.
elim: (List.seq 0 n) => [//|x l IH] H /=.
rewrite H ?normr0; last by left.
by rewrite rf_max maxxx; apply: IH => k kl; apply: H; right.
Qed.
Lemma err_max_lt (a b c tol : F) : @err_max F (Num_rf F) a b c < tol -> [/\ a < tol, b < tol & c < tol].
Proof. by rewrite /err_max !rf_max !lt_maxl => /andP [/andP [-> ->] ->]. Qed.
End Cleaned.

Section Resid.
Variables (F : realFieldType) (nx np ny nz : nat).
Let nw := (ny + nz)%N.
Variables (d : pdata F) (e : evals F) (u : mvec F) (M : mmat F) (q : rwq F) (c : canon F).
Hypothesis CV : canonical_view nx np nw M q c.

Lemma sum_js_ju (f : nat -> F) : \sum_(j < nx) f j = \sum_(j <- kjs c) f j + \sum_(j <- kju c) f j.
Proof. by rewrite -big_indices (big_Permutation _ (view_perm CV)) big_app. Qed.

Lemma combined_awbs i : (i < knbe c + knbi c)%N ->
  \sum_(l < nw) kR c i l * rv_awstar np ny d e M c u l
  - (mx u (ix (kjs c) i) + \sum_(j < knne c + knni c) kSbn c i j * mx u (ix (kjs c) (knbe c + knbi c + j)%N) + \sum_(k < np) kSbp c i k * mp u k)
  = combined nx np ny nz d e (mWx M) (mWp M) u (kR c) i.
Proof.
move=> ib.
pose u' : cvec F (knbe c + knbi c) (knne c + knni c) np := CVec (\col_k mx u (ix (kjs c) k)) (\col_k mp u k) 0.
have [||| _ _ R3] := @rows_agree _ _ _ _ _ _ _ CV (MVec (mx u) (mp u) (fun _ => 0)) u'; try by move=> k; rewrite mxE.
  by move=> k; rewrite !big1 // => l _; rewrite /= ?mxE mulr0.
have := R3 (Ordinal ib); rewrite [RHS]mxE [X in _ = X + _]mxE [X in _ = X + _ + _]mxE [X in _ = X + _ + _]mxE [X in _ = _ + X + _]mxE [X in _ = _ + X]mxE /=.
rewrite (eq_bigr (fun j : 'I_(knne c + knni c) => kSbn c i j * mx u (ix (kjs c) (knbe c + knbi c + j)%N))); last by move=> j _; rewrite !mxE.
rewrite [X in _ = _ + _ + X](eq_bigr (fun k : 'I_np => kSbp c i k * mp u k)); last by move=> j _; rewrite !mxE.
move=> <-; rewrite -sumrB; apply: eq_bigr => l _; rewrite -mulrBr; congr (_ * _).
rewrite /rv_awstar /constraint_left /Wrow /=; case: ifP => _.
  by rewrite (sum_js_ju (fun j => mWx M l j * mx u j)) opprD !addrA; congr (_ - _); rewrite addrAC opprD addrA addrAC.
by rewrite addrAC subrr add0r.
Qed.

Lemma awbs_close i : (i < knbe c + knbi c)%N ->
  `|rv_awbs np ny nz d e M c u i - combined nx np ny nz d e (mWx M) (mWp M) u (kR c) i| <= roundoff ny nz (kR c) (rv_awstar np ny d e M c u) i.
Proof.
move=> ib; rewrite -combined_awbs // /rv_awbs.
set A := @multiplyClean _ _ _ _ _ _ _; set B := \sum_(l < nw) _; set C := (mx _ _ + _ + _).
have -> : A - C - (B - C) = A - B by rewrite opprB addrA subrK.
exact: clean_close.
Qed.

Lemma awbs_exact i : (i < knbe c + knbi c)%N -> no_cancellation ny nz (kR c) (rv_awstar np ny d e M c u) i ->
  rv_awbs np ny nz d e M c u i = combined nx np ny nz d e (mWx M) (mWp M) u (kR c) i.
Proof. by move=> ib NC; rewrite -combined_awbs // /rv_awbs clean_exact. Qed.

Lemma ax_stable i : (i < nx)%N -> ~ In i (kju c) -> rv_ax ny nz e M c u i = - lagrangian ny nz e (mWx M) u i.
Proof.
move=> ix iu; rewrite /rv_ax; case E: contains; first by case: iu; apply/contains_In.
by rewrite /lagrangian big_split_ord addrA.
Qed.
Lemma ax_unstable i : In i (kju c) -> rv_ax ny nz e M c u i = 0.
Proof. by move=> iu; rewrite /rv_ax (proj2 (contains_In _ _) iu). Qed.
Lemma aw_left l : rv_aw nx np ny d e M u l = constraint_left nx np ny d e (mWx M) (mWp M) u l.
Proof.
rewrite /rv_aw /constraint_left; case: ifP => // _.
by rewrite !opprD opprK addrC addrA.
Qed.
End Resid.

Section Update.
Variables (F : realFieldType) (part : partition_impl) (nx np ny nz : nat).
Let nw := (ny + nz)%N.
Variables (d : pdata F) (e : evals F) (Wx Wp : rawmx F) (q : rwq F) (u : mvec F).
Hypothesis HC : partition_contract part.
Hypothesis HE : forall ju, echelon_form nx np nw (rf_master e Wx Wp ju) (qR q) (qSbn q) (qSbp q) (qjb q) (qjn q).

Lemma nth_vlist n (v : rawvec F) i : (i < n)%N -> List.nth i (vlist n v) 0 = v i.
Proof.
move=> /ssrnat.ltP ij; rewrite /vlist (nth_indep _ 0 (v 0%N)); last by rewrite map_length seq_length.
by rewrite map_nth seq_nth.
Qed.
Lemma length_vlist n (v : rawvec F) : length (vlist n v) = n.
Proof. by rewrite map_length seq_length. Qed.

Lemma dotsum_rf n acc (a b : rawvec F) s :
  @dotsum F (Num_rf F) acc (List.map a (List.seq s n)) (List.map b (List.seq s n)) = acc + \sum_(l <- List.seq s n) a l * b l.
Proof.
elim: n s acc => [|n IH] s acc /=; first by rewrite big_nil addr0.
by rewrite IH big_cons addrA.
Qed.
Lemma stab_s_rf i : (i < nx)%N ->
  List.nth i (@stab_s F (Num_rf F) (mlist nw nx Wx) (vlist nx (eg e)) (vlist nw (mw u))) 0 = lagrangian ny nz e Wx u i.
Proof.
move=> ij; rewrite /stab_s length_vlist.
set f := fun i : nat => _.
rewrite -[LHS]/(List.nth i (vlist nx f) 0) nth_vlist // /f /= nth_vlist // /lagrangian; congr (_ + _).
rewrite /mlist map_map.
rewrite (map_ext _ (fun l => Wx l i)); last by move=> l; rewrite nth_vlist.
by rewrite dotsum_rf add0r -(big_indices (ny + nz) (fun l => Wx l i * mw u l)).
Qed.

Let st := rf_stability part nx ny nz d e Wx (qjb q) u.
Lemma jb_nodup : NoDup (qjb q) /\ forall i, In i (qjb q) -> (i < nx)%N.
Proof.
have [P _ _ _] := HE [::]; split.
  have := Permutation_NoDup P (seq_NoDup _ _).
  by elim: (qjb q) => [|x l IH] /=; [constructor | move=> /NoDup_cons_iff [H1 H2]; constructor; [move=> H; apply: H1; apply: in_or_app; left | apply: IH]].
move=> i ij; apply/ssrnat.ltP.
have : In i (indices nx) by apply: Permutation_in (Permutation_sym P) _; apply: in_or_app; left.
by rewrite in_seq; lia.
Qed.

Lemma rf_ju : [/\ NoDup (status_ju st), forall j, In j (status_ju st) -> (j < nx)%N, forall j, In j (qjb q) -> In j (status_ju st) -> False
   & forall j, In j (status_ju st) -> (mx u j = dxl d j /\ 0 < lagrangian ny nz e Wx u j) \/ (mx u j = dxu d j /\ lagrangian ny nz e Wx u j < 0)].
Proof.
have [ND RG] := jb_nodup.
have [E0|E0] : qjb q = [::] \/ qjb q <> [::] by case: (qjb q); [left | right].
  have -> : status_ju st = [::] by rewrite /st /rf_stability E0; apply: stability_empty_ju.
  by split=> //; constructor.
have RG' i : In i (qjb q) -> (i < length (vlist nx (mx u)))%coq_nat by move/RG/ssrnat.ltP; rewrite length_vlist.
have [_ [P [EU [_ [HL [HU _]]]]]] := @stability_update_correct F (Num_rf F) (@rf_asym F) part HC (mlist nw nx Wx) (vlist nx (eg e)) (vlist nx (mx u)) (vlist nw (mw u)) (vlist nx (dxl d)) (vlist nx (dxu d)) (qjb q) E0 ND RG'.
rewrite -/(rf_stability part nx ny nz d e Wx (qjb q) u) -/st length_vlist in P EU HL HU.
have L i (v : rawvec F) : (i < nx)%coq_nat -> List.nth i (vlist nx v) nzero = v i by move/ssrnat.ltP; apply: nth_vlist.
have S i : (i < nx)%coq_nat -> List.nth i (@stab_s F (Num_rf F) (mlist nw nx Wx) (vlist nx (eg e)) (vlist nw (mw u))) nzero = lagrangian ny nz e Wx u i.
  by move/ssrnat.ltP; apply: stab_s_rf.
have NDU : NoDup (status_ju st).
  rewrite EU; move: (Permutation_NoDup (Permutation_sym P) (seq_NoDup _ _)).
  by elim: (status_js st) => //= x l IH /NoDup_cons_iff [].
have C j : In j (status_ju st) -> [/\ (j < nx)%N, ~ In j (qjb q) & (mx u j = dxl d j /\ 0 < lagrangian ny nz e Wx u j) \/ (mx u j = dxu d j /\ lagrangian ny nz e Wx u j < 0)].
  rewrite EU => /(@in_app_or _ _ _ _) [/HL|/HU] [jx [jb [/eqP H1 H2]]]; rewrite !L // in H1; rewrite S // in H2;
  by split=> //; [apply/ssrnat.ltP | left + right].
by split=> // j; [move/C => [] | move=> jb /C [] | move/C => []].
Qed.

Lemma rf_update_total : exists r, rf_update part nx np ny nz d e Wx Wp q u = Some r.
Proof.
rewrite /rf_update -/st; case E: canonicalize => [c|]; first by eexists.
move/(@canonicalize_error F part nx np (rf_master e Wx Wp (status_ju st)) q HC): E => [j [jb ju]].
by have [_ _ /(_ j jb ju)] := rf_ju.
Qed.

Lemma firstn_kjs (M : mmat F) (c : canon F) : canonical_view nx np nw M q c -> firstn (knbe c + knbi c)%N (kjs c) = kjb c.
Proof.
move=> CV; have [lb ls _] := cv_sizes CV.
have E : firstn (knbe c + knbi c)%N (kjs c ++ kju c) = firstn (knbe c + knbi c)%N (kjb c ++ kjn c) by rewrite (cv_order CV).
move: E; rewrite !firstn_app lb ls.
have -> : ((knbe c + knbi c)%N - (knbe c + knbi c)%N)%coq_nat = 0%N by rewrite Nat.sub_diag.
have -> : ((knbe c + knbi c)%N - (knbe c + knbi c + (knne c + knni c))%N)%coq_nat = 0%N by rewrite -!plusE; lia.
by rewrite !firstn_O !app_nil_r => ->; rewrite -lb firstn_all.
Qed.

Lemma rf_update_view r : rf_update part nx np ny nz d e Wx Wp q u = Some r ->
  [/\ rM r = rf_master e Wx Wp (status_ju st), canonical_view nx np nw (rM r) q (rc r)
    & rerror r = err_update nx np nw (knbe (rc r) + knbi (rc r)) (rv_ax ny nz e (rM r) (rc r) u) (rv_ap e) (rv_awbs np ny nz d e (rM r) (rc r) u)
           (mx u) (dxl d) (dxu d) (kju (rc r)) (kjb (rc r))].
Proof.
have [ND RG _ _] := rf_ju.
rewrite /rf_update -/st; case E: canonicalize => [c|//] [<-] /=.
have CV := @canonicalize_view F part nx np nw (rf_master e Wx Wp (status_ju st)) q HC (HE _) ND RG c E.
by split=> //; rewrite (firstn_kjs CV).
Qed.

Lemma rf_update_bounds r : rf_update part nx np ny nz d e Wx Wp q u = Some r ->
  [/\ forall i, (i < nx)%N -> `|lagrangian ny nz e Wx u i| <= rerror r \/ (mx u i = dxl d i /\ 0 < lagrangian ny nz e Wx u i)
        \/ (mx u i = dxu d i /\ lagrangian ny nz e Wx u i < 0) \/ (In i (qjb q) /\ on_bound d u i),
      forall k, (k < np)%N -> `|ev e k| <= rerror r
    & forall i, (i < knbe (rc r) + knbi (rc r))%N ->
        `|combined nx np ny nz d e Wx Wp u (kR (rc r)) i| <= rerror r + roundoff ny nz (kR (rc r)) (rv_awstar np ny d e (rM r) (rc r) u) i].
Proof.
move=> /rf_update_view [EM CV EE].
have MX (a b c : F) : [/\ a <= err_max a b c, b <= err_max a b c & c <= err_max a b c].
  by rewrite /err_max !rf_max; split; rewrite !le_maxr lexx ?orbT.
move: EE; rewrite /err_update; set E1 := norminf nx _; set E2 := norminf np _; set E3 := norminf nw _ => EE.
have [L1 L2 L3] := MX E1 E2 E3; rewrite -EE in L1 L2 L3.
split.
- move=> i ix.
  have [iu|iu] := in_dec Nat.eq_dec i (kju (rc r)).
    have /(cv_unstable CV) := iu; rewrite EM /= => iu'.
    by have [_ _ _ /(_ i iu')] := rf_ju; tauto.
  have H : `|err_ex (rv_ax ny nz e (rM r) (rc r) u) (mx u) (dxl d) (dxu d) (kju (rc r)) (kjb (rc r)) i| <= rerror r.
    by apply: le_trans L1; apply: norminf_le.
  move: H; rewrite /err_ex; case EU: (contains i (kju (rc r))); first by case: iu; apply/contains_In.
  case EB: (contains i (kjb (rc r))) => /=; last first.
    by rewrite (ax_stable _ _ _ _ _ ix iu) /= normrN normr_id EM => H; left.
  have jb : In i (qjb q) by apply: Permutation_in (Permutation_sym (cv_basic CV)) _; apply/contains_In.
  case: eqP => [B|NB]; first by move=> _; do 3!right; split=> //; right.
  case: eqP => [B|NB']; first by move=> _; do 3!right; split=> //; left.
  by rewrite (ax_stable _ _ _ _ _ ix iu) /= normrN normr_id EM => H; left.
- move=> k kp; apply: le_trans L2.
  have := norminf_le (@err_ep F (Num_rf F) (rv_ap e)) kp; rewrite /err_ep /= normr_id.
  by rewrite /rv_ap normrN.
- move=> i ib.
  have iw : (i < nw)%N.
    have [lb _ _] := cv_sizes CV; have [_ H _ _] := cv_echelon CV; rewrite lb in H.
    apply: leq_trans ib _.
    apply: (@mulmx1_min F _ _ (\matrix_(i, l) kR (rc r) i l) (\matrix_(l, k) mWx (rM r) l (ix (kjb (rc r)) k))).
    by apply/matrixP => a b; rewrite [RHS]mxE -[RHS]H // mxE; apply: eq_bigr => l _; rewrite !mxE.
  have H : `|rv_awbs np ny nz d e (rM r) (rc r) u i| <= rerror r.
    apply: le_trans L3.
    have := norminf_le (@err_ewbar F (Num_rf F) (knbe (rc r) + knbi (rc r)) (rv_awbs np ny nz d e (rM r) (rc r) u)) iw.
    rewrite {1}/err_ewbar; case: Nat.ltb_spec => [_|/ssrnat.leP]; first by rewrite /= normr_id.
    by rewrite leqNgt ib.
  have := awbs_close d e u CV ib; rewrite EM /= => H2; rewrite -EM in H2.
  rewrite -[X in `|X|](subrK (rv_awbs np ny nz d e (rM r) (rc r) u i)).
  rewrite addrC; apply: le_trans (ler_norm_add _ _) _; apply: ler_add => //.
  by rewrite -EM distrC.
Qed.
End Update.
