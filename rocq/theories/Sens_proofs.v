(** Proofs about Sens_model. *)
From Coq Require Import List PeanoNat Permutation Lia.
From mathcomp Require Import all_ssreflect all_algebra.
From Verif Require Import Num Index_model Index_spec Index_proofs Num_rf LU_model LU_spec Linear_model Linear_spec Linear_proofs Canonical_model Canonical_spec Canonical_proofs.
From Verif Require Import ResErr_model Residual_model Residual_spec Residual_proofs Sens_model Sens_spec.
Set Implicit Arguments.
Unset Strict Implicit.
Unset Printing Implicit Defensive.
Local Open Scope ring_scope.
Import Order.TTheory GRing.Theory Num.Theory.
Local Notation "l ++ l'" := (List.app l l') : seq_scope.

Section Unique.
Variables (F : realFieldType) (nx np nw : nat) (M : mmat F) (q : rwq F) (c : canon F).
Hypothesis CV : canonical_view nx np nw M q c.

(** the x and p of two solutions of the master equations agree, when Wx has as many
    independent rows as there are basic variables *)
Lemma master_unique (a u v : mvec F) :
  rows_spanned nx nw M c -> nonsingular (canon_cmat np M c) -> master_eqs np nw M c a u -> master_eqs np nw M c a v ->
  (forall i, (i < nx)%N -> mx u i = mx v i) /\ (forall k, (k < np)%N -> mp u k = mp v k).
Proof.
move=> [K HK] N HU HV.
pose cv (v : mvec F) : cvec F (knbe c + knbi c) (knne c + knni c) np :=
  CVec (\col_k mx v (ix (kjs c) k)) (\col_k mp v k) (\col_b \sum_(l < nw) K l b * mw v l).
have In_kjs (k : 'I_(knbe c + knbi c + (knne c + knni c))) : In (ix (kjs c) k) (kjs c).
  by apply: nth_In; rewrite (kjs_len CV); apply/ssrnat.ltP; apply: ltn_ord.
have CE w : master_eqs np nw M c a w -> canonical_eqs (canon_cmat np M c) (canon_rhs np nw c a) (cv w).
  move=> [V1 V2 V3 V4].
  have [||| R1 R2 R3] := @rows_agree _ _ _ _ _ _ _ CV w (cv w); try by move=> k; rewrite mxE.
    move=> k.
    rewrite (eq_bigr (fun l : 'I_nw => \sum_(b < knbe c + knbi c) (\sum_(l' < nw) kR c b l' * mWx M l' (ix (kjs c) k)) * (K l b * mw w l))); last first.
      move=> l _; rewrite HK //; last by have /(cv_stable CV) [] := In_kjs k.
      by rewrite mulr_suml; apply: eq_bigr => b _; rewrite mulrAC mulrC.
    by rewrite exchange_big; apply: eq_bigr => b _; rewrite /= mxE mulr_sumr.
  split; apply/colP => k.
  - by rewrite -R1 V1 ?mxE.
  - by rewrite -R2 V3 ?mxE.
  - by rewrite -R3 V4 ?mxE.
have E := eqs_unique N (CE u HU) (CE v HV).
have Ex : \col_k mx u (ix (kjs c) k) = \col_k mx v (ix (kjs c) k) :> 'cV_(knbe c + knbi c + (knne c + knni c)) by case: E.
have Ep : \col_k mp u k = \col_k mp v k :> 'cV_np by case: E.
split=> [i il|k kl]; last by have /colP /(_ (Ordinal kl)) := Ep; rewrite !mxE.
have : In i (kjs c ++ kju c).
  by apply: Permutation_in (view_perm CV) _; rewrite in_seq; move/ssrnat.ltP: il; lia.
case/(@in_app_or _ _ _ _) => [/In_ix [t tl <-]|iu]; last by rewrite (me_u HU) ?(me_u HV).
move: tl; rewrite (kjs_len CV) => /ssrnat.ltP tl.
by have /colP /(_ (Ordinal tl)) := Ex; rewrite !mxE.
Qed.

Lemma sum_stable (f g : nat -> F) : (forall i, In i (kju c) -> g i = 0) ->
  \sum_(j < nx) f j * g j = \sum_(j <- kjs c) f j * g j.
Proof.
move=> Z; rewrite -(big_indices nx (fun j => f j * g j)) (big_Permutation _ (view_perm CV)) big_app.
rewrite [X in _ + X]big_seq_cond [X in _ + X]big1 ?addr0 //.
by move=> i; rewrite andbT => /mem_In /Z ->; rewrite mulr0.
Qed.
End Unique.

Section SensSolve.
Variables (F : realFieldType) (part : partition_impl) (nx np ny nz : nat).
Let nw := (ny + nz)%N.
Variables (d : pdata F) (e : evals F) (Wx Wp : rawmx F) (q : rwq F) (u : mvec F) (r : residual F).
Hypothesis HC : partition_contract part.
Hypothesis HE : forall ju, echelon_form nx np nw (rf_master e Wx Wp ju) (qR q) (qSbn q) (qSbp q) (qjb q) (qjn q).
Hypothesis HR : rf_update part nx np ny nz d e Wx Wp q u = Some r.
Let js := status_js (rst r).
Let ju := status_ju (rst r).
Let jms := status_jms (rst r).

Lemma rst_eq : rst r = rf_stability part nx ny nz d e Wx (qjb q) u.
Proof. by move: HR; rewrite /rf_update; case: canonicalize => [c|//] [<-]. Qed.

Lemma status_part : Permutation (indices nx) (js ++ ju).
Proof.
rewrite /js /ju rst_eq; have [ND RG] := jb_nodup HE.
have [E0|E0] : qjb q = [::] \/ qjb q <> [::] by case: (qjb q); [left | right].
  rewrite /rf_stability E0.
  have [P _] := @stability_empty_jb F (Num_rf F) part (mlist nw nx Wx) (vlist nx (eg e)) (vlist nx (mx u)) (vlist nw (mw u)) (vlist nx (dxl d)) (vlist nx (dxu d)) HC.
  rewrite stability_empty_ju // app_nil_r; apply: Permutation_sym; move: P; by rewrite length_vlist.
have RG' i : In i (qjb q) -> (i < length (vlist nx (mx u)))%coq_nat by move/RG/ssrnat.ltP; rewrite length_vlist.
have [_ [P [EU _]]] := @stability_update_correct F (Num_rf F) (@rf_asym F) part HC (mlist nw nx Wx) (vlist nx (eg e)) (vlist nx (mx u)) (vlist nw (mw u)) (vlist nx (dxl d)) (vlist nx (dxu d)) (qjb q) E0 ND RG'.
by rewrite /rf_stability EU; apply: Permutation_sym; move: P; rewrite length_vlist.
Qed.
Lemma status_ltn i : In i js \/ In i ju <-> (i < nx)%N.
Proof.
split=> [H|/ssrnat.ltP il].
  apply/ssrnat.ltP; have : In i (indices nx) by apply: Permutation_in (Permutation_sym status_part) _; apply: in_or_app.
  by rewrite in_seq; lia.
by apply: in_app_or; apply: Permutation_in status_part _; rewrite in_seq; lia.
Qed.
Lemma status_disj i : In i js -> ~ In i ju.
Proof.
have := Permutation_NoDup status_part (seq_NoDup _ _).
by elim: js => //= x l IH /NoDup_cons_iff [H1 H2] [<-|/IH]; [move=> H; apply: H1; apply: in_or_app; right | apply].
Qed.
Lemma jms_js i : In i jms -> In i js.
Proof.
have SK n (l : list nat) : In i (skipn n l) -> In i l by elim: n l => [//|n IH] [//|x l] /= /IH; right.
have FS n (l : list nat) : In i (firstn n l) -> In i l by elim: n l => [//|n IH] [//|x l] /= [->|/IH]; [left | right].
by rewrite /jms /js /status_jms /vtail => /SK /FS.
Qed.

Let CV : canonical_view nx np nw (rM r) q (rc r).
Proof. by have [_] := rf_update_view HC HE HR. Qed.
Lemma ju_kju i : In i ju <-> In i (kju (rc r)).
Proof. by rewrite (cv_unstable CV); have [-> _ _] := rf_update_view HC HE HR; rewrite /ju rst_eq. Qed.
Lemma js_kjs i : In i js <-> In i (kjs (rc r)).
Proof.
rewrite (cv_stable CV) -(cv_unstable CV) -ju_kju; split=> [H|[/status_ltn [H|//] //]].
by split; [apply/status_ltn; left | exact: status_disj].
Qed.

(** the differentiated conditions are the master equations *)
Lemma master_differentiated (k : cderivs F) r0 (t : sens F) (v : mvec F) (a := sens_rhs ny js ju k r0) :
  mx v = sx t -> mp v = sp t -> mw v = sw t ->
  (master_eqs np nw (rM r) (rc r) a v <->
   [/\ d_stationary nx np ny nz (rM r) k t js, d_fixed t ju, d_external nx np (rM r) k t
     & forall i, (i < knbe (rc r) + knbi (rc r))%N -> \sum_(l < nw) kR (rc r) i l * d_constraint nx np ny (rM r) k t l = 0]) /\
  ((forall i, In i ju -> sx t i = 0) -> (all_W_rows np nw (rM r) (rc r) a v <-> d_constraints nx np ny nz (rM r) k t)).
Proof.
move=> Ex Ep Ew.
have Cu i : In i ju -> mx a i = 0 by move=> /contains_In /= ->.
have Cs i : In i js -> mx a i = - cfx k i.
  move=> H; rewrite /a /=; case: ifP => [/contains_In|_]; first by move=> /(status_disj H).
  by have /contains_In -> := H.
have S (f : nat -> F) : (forall i, In i ju -> sx t i = 0) -> \sum_(j < nx) f j * sx t j = \sum_(j <- kjs (rc r)) f j * mx v j.
  by move=> Z; rewrite Ex (sum_stable CV) // => i /ju_kju; exact: Z.
have W l : (forall i, In i ju -> sx t i = 0) ->
  d_constraint nx np ny (rM r) k t l = Wrow np (rM r) (kjs (rc r)) v l - mw a l.
  by move=> Z; rewrite /d_constraint (S (mWx (rM r) l)) // /Wrow Ep.
split; last first.
  move=> Z; split=> H l ll.
  - by rewrite W // H // subrr.
  - by apply: subr0_eq; rewrite -W // H.
split.
- move=> [M1 M2 M3 M4].
  have Z i : In i ju -> sx t i = 0 by move=> iu; rewrite -Ex M2 ?Cu //; apply/ju_kju.
  split=> //.
  + move=> i ij; have ij' : In i (kjs (rc r)) by apply/js_kjs.
    rewrite /d_stability (S (mHxx (rM r) i)) // -Ep -Ew -!addrA [X in _ + X]addrA M1 // Cs //.
    by rewrite subrr.
  + by move=> l lp; rewrite /d_v (S (mVpx (rM r) l)) // -Ep -addrA M3 //= subrr.
  + move=> i ib; rewrite (eq_bigr (fun l : 'I_nw => kR (rc r) i l * Wrow np (rM r) (kjs (rc r)) v l - kR (rc r) i l * mw a l)).
      by rewrite sumrB M4 // subrr.
    by move=> l _; rewrite W // mulrBr.
- move=> [D1 D2 D3 D4]; split.
  + move=> i ij; have /js_kjs ij' := ij.
    have := D1 i ij'; rewrite /d_stability (S (mHxx (rM r) i)) // -Ep -Ew -!addrA [X in _ + X]addrA Cs // => /eqP; rewrite addrC addr_eq0 => /eqP.
    by rewrite !addrA.
  + by move=> i iu; rewrite Ex D2 ?Cu //; apply/ju_kju.
  + move=> l lp; have := D3 l lp; rewrite /d_v (S (mVpx (rM r) l)) // -Ep -addrA => /eqP.
    by rewrite addrC addr_eq0 => /eqP.
  + move=> i ib; apply: subr0_eq; apply: etrans (D4 i ib); rewrite -sumrB; apply: eq_bigr => l _.
    by rewrite W // mulrBr.
Qed.

Lemma nthv i (v : rawvec F) : (i < nx)%N -> List.nth i (vlist nx v) (@nzero F (Num_rf F)) = v i.
Proof. exact: nth_vlist. Qed.
Lemma nths i : (i < nx)%N -> List.nth i (@stab_s F (Num_rf F) (mlist nw nx Wx) (vlist nx (eg e)) (vlist nw (mw u))) (@nzero F (Num_rf F)) = lagrangian ny nz e Wx u i.
Proof. exact: stab_s_rf. Qed.
Lemma status_jms_spec : qjb q <> [::] -> forall i, In i jms <->
  In i (qjb q) /\ ((mx u i = dxl d i /\ 0 < lagrangian ny nz e Wx u i) \/ (mx u i = dxu d i /\ lagrangian ny nz e Wx u i < 0)).
Proof.
move=> E0 i; rewrite /jms rst_eq; have [ND RG] := jb_nodup HE.
have RG' j : In j (qjb q) -> (j < length (vlist nx (mx u)))%coq_nat by move/RG/ssrnat.ltP; rewrite length_vlist.
have [_ [_ [_ [_ [_ [_ HM]]]]]] := @stability_update_correct F (Num_rf F) (@rf_asym F) part HC (mlist nw nx Wx) (vlist nx (eg e)) (vlist nx (mx u)) (vlist nw (mw u)) (vlist nx (dxl d)) (vlist nx (dxu d)) (qjb q) E0 ND RG'.
rewrite /rf_stability HM.
split=> -[jb]; have /RG il := jb; rewrite !nthv // nths // => H; split=> //.
- by case: H => -[/eqP H1 H2]; [left | right].
- by case: H => -[/eqP H1 H2]; [left | right].
Qed.
Lemma status_ju_spec : qjb q <> [::] -> forall i, In i ju <->
  [/\ (i < nx)%N, ~ In i (qjb q) & (mx u i = dxl d i /\ 0 < lagrangian ny nz e Wx u i) \/ (mx u i = dxu d i /\ lagrangian ny nz e Wx u i < 0)].
Proof.
move=> E0 i; rewrite /ju rst_eq; have [ND RG] := jb_nodup HE.
have RG' j : In j (qjb q) -> (j < length (vlist nx (mx u)))%coq_nat by move/RG/ssrnat.ltP; rewrite length_vlist.
have [_ [_ [EU [_ [HL [HU _]]]]]] := @stability_update_correct F (Num_rf F) (@rf_asym F) part HC (mlist nw nx Wx) (vlist nx (eg e)) (vlist nx (mx u)) (vlist nw (mw u)) (vlist nx (dxl d)) (vlist nx (dxu d)) (qjb q) E0 ND RG'.
rewrite /rf_stability EU; split.
  move/(@in_app_or _ _ _ _) => [/HL|/HU] [] /[dup]; rewrite length_vlist => /ssrnat.ltP il _ [nb]; rewrite !nthv // nths // => -[/eqP H1 H2].
  - by split=> //; left.
  - by split=> //; right.
move=> [il nb H]; apply: in_or_app.
have ic : (i < length (vlist nx (mx u)))%coq_nat by rewrite length_vlist; apply/ssrnat.ltP.
by case: H => -[/eqP H1 H2]; [left; apply/HL | right; apply/HU]; rewrite !nthv // nths //; split.
Qed.
End SensSolve.
