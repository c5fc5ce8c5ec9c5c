From Coq Require Import List PeanoNat Permutation Lia Bool.
From mathcomp Require Import all_ssreflect all_fingroup all_algebra.
From Verif Require Import Index_model Index_spec Index_proofs LU_model Linear_model Linear_spec Linear_proofs Canonical_model Canonical_spec.
Set Implicit Arguments.
Unset Strict Implicit.
Unset Printing Implicit Defensive.
Import Order.TTheory GRing.Theory Num.Theory.
Local Open Scope list_scope.
Local Notation "l ++ l'" := (List.app l l') : seq_scope.

(** ** Lists *)
Lemma NoDup_app_l (T : Type) (l l' : list T) : NoDup (List.app l l') -> NoDup l.
Proof.
elim: l => [|b l IH] /=; first by constructor.
by move=> /NoDup_cons_iff [H /IH K]; constructor=> // J; apply: H; apply: in_or_app; left.
Qed.
Lemma NoDup_app_r (T : Type) (l l' : list T) : NoDup (List.app l l') -> NoDup l'.
Proof. by elim: l => //= a l IH /NoDup_cons_iff [_ /IH]. Qed.
Lemma ix_firstn k l t : (t < k)%coq_nat -> (t < length l)%coq_nat -> In (ix l t) (firstn k l).
Proof.
move=> tk tl; rewrite /ix -{1}(firstn_skipn k l) app_nth1; first by apply: nth_In; rewrite firstn_length; lia.
rewrite firstn_length; lia.
Qed.
Lemma ix_skipn k l t : (k <= t)%coq_nat -> (t < length l)%coq_nat -> In (ix l t) (skipn k l).
Proof.
move=> tk tl; rewrite /ix -{1}(firstn_skipn k l) app_nth2 ?firstn_length; last by lia.
by apply: nth_In; rewrite skipn_length; lia.
Qed.

Lemma two_stage part : partition_contract part -> forall l p q out1 k1 out2 k2,
  moveLeftIf part l p = (out1, k1) -> moveLeftIf part (firstn k1 out1) q = (out2, k2) ->
  let K := out2 ++ skipn k1 out1 in
  [/\ Permutation l K, (k2 <= k1)%coq_nat, (k1 <= length l)%coq_nat,
      (forall t, (t < length l)%coq_nat -> p (ix K t) = (t <? k1)%nat)
    & (forall t, (t < k1)%coq_nat -> q (ix K t) = (t <? k2)%nat)].
Proof.
move=> HC l p q out1 k1 out2 k2 H1 H2 K.
have [P1 [L1 [A1 B1]]] := HC _ _ _ _ H1; have [P2 [L2 [A2 B2]]] := HC _ _ _ _ H2.
have l1 := Permutation_length P1.
have len2 : length out2 = k1 by rewrite -(Permutation_length P2) firstn_length; lia.
have PK : Permutation l K by rewrite P1 -{1}(firstn_skipn k1 out1) /K P2.
have lK := Permutation_length PK.
split => //; try lia.
- move=> t tl; case: (Nat.ltb_spec t k1) => tk.
    apply: A1; apply: (Permutation_in _ (Permutation_sym P2)).
    by rewrite /K /ix app_nth1 ?len2 //; apply: nth_In; rewrite len2.
  apply: B1; rewrite /K /ix app_nth2 ?len2 //; apply: nth_In; rewrite skipn_length; lia.
- move=> t tk.
  have E : ix K t = ix out2 t by rewrite /K /ix app_nth1 ?len2.
  rewrite E; case: (Nat.ltb_spec t k2) => tk2.
    by apply: A2; apply: ix_firstn => //; rewrite len2.
  by apply: B2; apply: ix_skipn => //; rewrite len2.
Qed.

Lemma ix_map f l t : (t < length l)%coq_nat -> ix (List.map f l) t = f (ix l t).
Proof. by move=> tl; rewrite /ix (nth_indep _ 0%N (f 0%N)) ?map_length // map_nth. Qed.
Lemma map_ix_indices l : List.map (ix l) (indices (length l)) = l.
Proof.
apply: (nth_ext _ _ 0%N 0%N); rewrite map_length seq_length // => t tl.
by rewrite -/(ix _ t) ix_map ?seq_length // /ix seq_nth.
Qed.
Lemma perm_map_ix l K : Permutation (indices (length l)) K -> Permutation l (List.map (ix l) K).
Proof. by move=> P; rewrite -{1}(map_ix_indices l); apply: Permutation_map. Qed.
Lemma perm_indices_lt n K t : Permutation (indices n) K -> (t < n)%coq_nat -> (ix K t < n)%coq_nat.
Proof.
move=> P tn; have /in_seq : In (ix K t) (indices n); last by lia.
by apply: (Permutation_in _ (Permutation_sym P)); apply: nth_In; rewrite -(Permutation_length P) seq_length.
Qed.
Lemma perm_indices_inj n K s t : Permutation (indices n) K -> (s < n)%coq_nat -> (t < n)%coq_nat -> ix K s = ix K t -> s = t.
Proof.
move=> P sn tn; have /NoDup_nth H : NoDup K by apply: Permutation_NoDup P (seq_NoDup _ _).
by apply: H; rewrite -(Permutation_length P) seq_length.
Qed.
Lemma In_ix l j : In j l -> exists2 t, (t < length l)%coq_nat & ix l t = j.
Proof. by move=> /(In_nth _ _ 0%N) [t [tl E]]; exists t. Qed.

Lemma mem_In (i : nat) s : i \in s <-> In i s.
Proof.
elim: s => [|k s IH] //=; rewrite inE; split=> [/orP [/eqP ->|/IH]|[->|/IH ->]]; auto; by rewrite ?eqxx ?orbT.
Qed.

Section Norm.
Variable F : realFieldType.
Local Open Scope ring_scope.
Lemma colnorm_le (m : nat) (A : rawmx F) j (b : F) : 0 <= b ->
  (colnorm m A j <= b) <-> forall i, (i < m)%N -> `|A i j| <= b.
Proof.
move=> b0; rewrite /colnorm.
have H : forall (s : list nat) (c : F), (fold_left (fun acc i => Num.max acc `|A i j|) s c <= b) <->
    c <= b /\ forall i, In i s -> `|A i j| <= b.
  elim=> [|i s IH] c /=; first by split => [//|[]].
  rewrite IH le_maxl; split=> [[/andP [cb Ab] H]|[cb H]].
    by split=> // k [<-|/H].
  by split=> [|k ks]; [rewrite cb H //; left | apply: H; right].
have I : forall i, In i (seq.iota 0 m) <-> (i < m)%N.
  by move=> i; rewrite -mem_In mem_iota.
by rewrite H; split=> [[_ K] i /I /K //|K]; split=> // i /I /K.
Qed.
End Norm.

Section Canon.
Variable F : realFieldType.
Local Open Scope ring_scope.
Variables (part : partition_impl) (nx np nw : nat) (M : mmat F) (q : rwq F).
Hypothesis HC : partition_contract part.
Hypothesis HE : echelon_form nx np nw M (qR q) (qSbn q) (qSbp q) (qjb q) (qjn q).
Hypothesis ND : NoDup (mju M).
Hypothesis RG : forall j, In j (mju M) -> (j < nx)%N.

Lemma canonicalize_error : canonicalize part nx np M q = None <-> exists j, In j (qjb q) /\ In j (mju M).
Proof.
rewrite /canonicalize.
case E1: (moveLeftIf part (indices (length (qjb q))) _) => [Kb1 nbs].
case E2: (moveLeftIf part (indices (length (qjn q))) _) => [Kn1 nns]; rewrite -!minusE.
have [P1 [L1 [A1 B1]]] := HC E1.
have l1 := Permutation_length P1; rewrite seq_length in l1.
case: (Nat.ltb_spec 0 (length (qjb q) - nbs)%coq_nat) => H; last first.
  case E3: (moveLeftIf part _ _) => [Kbs nbe]; case E4: (moveLeftIf part _ _) => [Kns nne]; split=> // -[j [jb ju]].
  have [t tl Ej] := In_ix jb.
  have tK : In t (firstn nbs Kb1).
    rewrite firstn_all2; last by lia.
    apply: (Permutation_in _ P1); apply/in_seq; split; lia.
  by have := A1 _ tK; rewrite -/(ix _ t) Ej => /negb_true_iff; rewrite (proj2 (contains_In _ _) ju).
split=> // _; have K : In (ix Kb1 nbs) (skipn nbs Kb1) by apply: ix_skipn; lia.
exists (ix (qjb q) (ix Kb1 nbs)); split.
  apply: nth_In; apply: (perm_indices_lt P1); lia.
by apply/contains_In; apply/negb_false_iff; exact: B1.
Qed.

Lemma canonicalize_view c : canonicalize part nx np M q = Some c -> canonical_view nx np nw M q c.
Proof.
rewrite /canonicalize; case: HE => PX EB EN EP.
have lx := Permutation_length PX; rewrite seq_length app_length in lx.
have NX : NoDup (qjb q ++ qjn q) by apply: Permutation_NoDup PX (seq_NoDup _ _).
case E1: (moveLeftIf part (indices (length (qjb q))) _) => [Kb1 nbs].
case E2: (moveLeftIf part (indices (length (qjn q))) _) => [Kn1 nns]; rewrite -!minusE.
case: (Nat.ltb_spec 0 (length (qjb q) - nbs)%coq_nat) => // Hnb.
case E3: (moveLeftIf part _ _) => [Kbs nbe]; case E4: (moveLeftIf part _ _) => [Kns nne].
have [PB b21 b1 SB XB] := two_stage HC E1 E3; have [PN n21 n1 SN XN] := two_stage HC E2 E4.
rewrite !seq_length in b1 n1 SB SN.
set Kb := Kbs ++ _ in PB SB XB *; set Kn := Kns ++ _ in PN SN XN *.
have nbsE : nbs = length (qjb q) by lia.
have lb := Permutation_length PB; have ln := Permutation_length PN; rewrite !seq_length in lb ln.
set jb := List.map (fun k => ix (qjb q) k) Kb; set jn := List.map (fun k => ix (qjn q) k) Kn.
have Pjb : Permutation (qjb q) jb by apply: perm_map_ix.
have Pjn : Permutation (qjn q) jn by apply: perm_map_ix.
have ljb : length jb = length (qjb q) by rewrite (Permutation_length Pjb).
have ljn : length jn = length (qjn q) by rewrite (Permutation_length Pjn).
have PA : Permutation (indices nx) (jb ++ jn) by rewrite PX Pjb Pjn.
have NJ : NoDup (jb ++ jn) by apply: Permutation_NoDup PA (seq_NoDup _ _).
have IA j : In j (jb ++ jn) <-> (j < nx)%coq_nat.
  split=> [/(Permutation_in _ (Permutation_sym PA))/in_seq|jx]; first by lia.
  by apply: (Permutation_in _ PA); apply/in_seq; lia.
(* stability by position *)
have Sb t : (t < length jb)%coq_nat -> ~ In (ix jb t) (mju M).
  move=> tl; have := SB t; rewrite -ljb => /(_ tl); have -> : (t <? nbs)%nat = true by apply/Nat.ltb_lt; lia.
  by rewrite ix_map -?lb -?ljb // => /negb_true_iff H /contains_In; rewrite H.
have Sn t : (t < length jn)%coq_nat -> (In (ix jn t) (mju M) <-> (nns <= t)%coq_nat).
  move=> tl; have := SN t; rewrite -ljn => /(_ tl).
  rewrite ix_map -?ln -?ljn // -/(contains _ _).
  case: (Nat.ltb_spec t nns) => tn.
    by move/negb_true_iff => H; split=> [/contains_In|]; [rewrite H | lia].
  by move/negb_false_iff/contains_In => H.
have Tj : Permutation (mju M) (skipn nns jn).
  apply: NoDup_Permutation => //.
    have := NoDup_app_r NJ; rewrite -{1}(firstn_skipn nns jn); exact: NoDup_app_r.
  move=> j; split=> [ju|].
    have /IA : (j < nx)%coq_nat by apply/ssrnat.ltP; apply: RG.
    move/(@in_app_or _ _ _ _); case=> /In_ix [t tl E].
      by case: (Sb t tl); rewrite E.
    by rewrite -E; apply: ix_skipn => //; apply/(Sn t tl); rewrite E.
  move/In_ix => [t]; rewrite skipn_length => tl <-.
  have -> : ix (skipn nns jn) t = ix jn (nns + t)%coq_nat.
    rewrite /ix -{2}(firstn_skipn nns jn) app_nth2 firstn_length; last by lia.
    congr List.nth; lia.
  by apply/Sn; lia.
have lu := Permutation_length Tj; rewrite skipn_length in lu.
have nsE : (nx - length (mju M))%coq_nat = length (jb ++ firstn nns jn) by rewrite app_length firstn_length; lia.
have jsuE : firstn nbs jb ++ firstn nns jn ++ skipn nns jn = (jb ++ firstn nns jn) ++ skipn nns jn.
  by rewrite firstn_all2 ?app_assoc //; lia.
rewrite jsuE nsE firstn_app firstn_all Nat.sub_diag firstn_O app_nil_r skipn_app skipn_all Nat.sub_diag skipn_O app_nil_l.
move=> [<-]; split=> //=.
- by rewrite -app_assoc firstn_skipn.
- split; rewrite -?plusE -?minusE.
  + rewrite ljb; lia.
  + rewrite app_length firstn_length; lia.
  + rewrite skipn_length ljn; lia.
- move=> j; split=> [/(@in_app_or _ _ _ _) [jB|jF]|[jx ju]].
  + split; first by apply/ssrnat.ltP; apply/IA; apply: in_or_app; left.
    by have [t tl <-] := In_ix jB; apply: Sb.
  + have [t] := In_ix jF; rewrite firstn_length => tl E.
    have E' : ix jn t = j.
      by rewrite -E /ix -{1}(firstn_skipn nns jn) app_nth1 // firstn_length; lia.
    split; first by apply/ssrnat.ltP; apply/IA; apply: in_or_app; right; rewrite -E'; apply: nth_In; lia.
    by rewrite -E'; apply/Sn; lia.
  + have /IA : (j < nx)%coq_nat by apply/ssrnat.ltP.
    move/(@in_app_or _ _ _ _); case=> [jB|/In_ix [t tl E]].
      by apply: in_or_app; left.
    apply: in_or_app; right; rewrite -E; apply: ix_firstn => //.
    case: (Nat.lt_ge_cases t nns) => // tn; case: ju; rewrite -E; exact/Sn.
- by move=> j; split; apply: Permutation_in; [apply: Permutation_sym|].
- have KB i : (i < length jb)%N -> (ix Kb i < length (qjb q))%N.
    by move=> il; apply/ssrnat.ltP; apply: (perm_indices_lt PB); rewrite -ljb; apply/ssrnat.ltP.
  have KN i : (i < length jn)%N -> (ix Kn i < length (qjn q))%N.
    by move=> il; apply/ssrnat.ltP; apply: (perm_indices_lt PN); rewrite -ljn; apply/ssrnat.ltP.
  have JB k : (k < length jb)%N -> ix jb k = ix (qjb q) (ix Kb k).
    by move=> kl; rewrite ix_map // -lb -ljb; apply/ssrnat.ltP.
  have JN k : (k < length jn)%N -> ix jn k = ix (qjn q) (ix Kn k).
    by move=> kl; rewrite ix_map // -ln -ljn; apply/ssrnat.ltP.
  split=> //.
  + move=> i k il kl; rewrite JB // EB ?KB //; congr (nat_of_bool _)%:R.
    apply/eqP/eqP => [H|-> //].
    by apply: (perm_indices_inj PB) H; rewrite -ljb; apply/ssrnat.ltP.
  + by move=> i k il kl; rewrite JN // EN ?KB ?KN.
  + by move=> i k il kl; rewrite EP ?KB.
- move=> k; rewrite -plusE => /ssrnat.ltP kl; have := XB k; rewrite /basic_explicit.
  have kl' : (k < nbs)%coq_nat by lia.
  move=> /(_ kl'); rewrite ix_map; last by rewrite -lb; lia.
  set j := ix (qjb q) (ix Kb k) => H.
  rewrite /dominates_basic -(colnorm_le np (mVpx M) j (normr_ge0 (mHxx M j j))).
  split=> [/ssrnat.ltP/Nat.ltb_lt|[h1 h2]].
    by rewrite -H le_maxl => /andP [].
  by apply/ssrnat.ltP/Nat.ltb_lt; rewrite -H le_maxl h1 h2.
- move=> k; rewrite -!plusE => /ssrnat.ltP kl; have := XN k; rewrite /nonbasic_explicit.
  have kl' : (k < nns)%coq_nat by lia.
  move=> /(_ kl'); rewrite ix_map; last by rewrite -ln; lia.
  set j := ix (qjn q) (ix Kn k) => H.
  rewrite /dominates_nonbasic -(colnorm_le np (mVpx M) j (normr_ge0 (mHxx M j j))).
  have nbE : Nat.add nbe (Nat.sub nbs nbe) = length (qjb q) by move: b21 nbsE; clear; lia.
  have RW : (forall i, (i < Nat.add nbe (Nat.sub nbs nbe))%N -> `|qSbn q (ix Kb i) (ix Kn k)| <= `|mHxx M j j|) <->
            colnorm (length (qjb q)) (qSbn q) (ix Kn k) <= `|mHxx M j j|.
    rewrite colnorm_le // nbE; split=> G i il; last first.
      by apply: G; apply/ssrnat.ltP; apply: (perm_indices_lt PB); apply/ssrnat.ltP.
    have /In_ix [t tl <-] : In i Kb.
      by apply: (Permutation_in _ PB); apply/in_seq; move/ssrnat.ltP: il; lia.
    by apply: G; rewrite -lb in tl; apply/ssrnat.ltP.
  rewrite RW; split=> [/ssrnat.ltP/Nat.ltb_lt|[h1 h2]].
    by rewrite -H le_maxl => /andP [].
  by apply/ssrnat.ltP/Nat.ltb_lt; rewrite -H le_maxl h1 h2.
Qed.
End Canon.

(** ** From the canonical to the master equations *)
Lemma posn_ix l k : NoDup l -> (k < length l)%coq_nat -> posn (ix l k) l = Some k.
Proof.
elim: l k => [|j l IH] k /=; first by lia.
move=> /NoDup_cons_iff [jl ND]; case: k => [|k] kl; first by rewrite Nat.eqb_refl.
have kl' : (k < length l)%coq_nat by lia.
rewrite /ix /= -/(ix l k); case: (Nat.eqb_spec (ix l k) j) => [E|_]; last by rewrite IH.
by case: jl; rewrite -E; apply: nth_In.
Qed.
Lemma posn_None i l : ~ In i l -> posn i l = None.
Proof.
elim: l => //= j l IH H; case: (Nat.eqb_spec i j) => [E|_]; first by case: H; left.
by rewrite IH // => K; apply: H; right.
Qed.

Section Master.
Variable F : realFieldType.
Local Open Scope ring_scope.

Lemma rawcolE n (v : 'cV[F]_n) (k : 'I_n) : rawcol v k = v k 0.
Proof. by rewrite /rawcol valK. Qed.
Lemma sum_list (l : list nat) (g : nat -> F) : \sum_(j <- l) g j = \sum_(k < length l) g (ix l k).
Proof.
elim: l => [|j l IH] /=; first by rewrite big_nil big_ord0.
by rewrite big_cons big_ord_recl IH.
Qed.

Variables (nx np nw : nat) (M : mmat F) (q : rwq F) (c : canon F).
Hypothesis CV : canonical_view nx np nw M q c.
Let nb := (knbe c + knbi c)%N.
Let nn := (knne c + knni c)%N.

Lemma view_perm : Permutation (indices nx) (kjs c ++ kju c).
Proof. by rewrite (cv_order CV); case: (cv_echelon CV). Qed.
Lemma view_nodup : NoDup (kjs c ++ kju c).
Proof. exact: Permutation_NoDup view_perm (seq_NoDup _ _). Qed.
Lemma view_nodup_s : NoDup (kjs c).
Proof. exact: NoDup_app_l view_nodup. Qed.
Lemma view_nodup_u : NoDup (kju c).
Proof. exact: NoDup_app_r view_nodup. Qed.
Lemma view_disj j : In j (kjs c) -> ~ In j (kju c).
Proof. by move/(cv_stable CV) => [_ H] /(cv_unstable CV). Qed.

Lemma ix_kjs t : (t < nb + nn)%N -> ix (kjs c) t = if (t < nb)%N then ix (kjb c) t else ix (kjn c) (t - nb).
Proof.
move=> tl; have [l1 l2 _] := cv_sizes CV; have E := cv_order CV.
have ts : (t < length (kjs c))%coq_nat by apply/ssrnat.ltP; rewrite l2.
have -> : ix (kjs c) t = ix (kjb c ++ kjn c) t by rewrite -E /ix app_nth1.
rewrite /ix; case: ltnP => H; first by rewrite app_nth1 // l1; apply/ssrnat.ltP.
by rewrite app_nth2 l1; [rewrite minusE | apply/ssrnat.leP].
Qed.
Lemma ix_kjs_b (b : 'I_nb) : ix (kjs c) (lshift nn b) = ix (kjb c) b.
Proof. by rewrite ix_kjs /= ?ltn_ord // (leq_trans (ltn_ord b)) // leq_addr. Qed.
Lemma ix_kjs_n (j : 'I_nn) : ix (kjs c) (rshift nb j) = ix (kjn c) j.
Proof. by rewrite ix_kjs /= ?ltn_add2l ?ltn_ord // ltnNge leq_addr addKn. Qed.
Lemma kjs_len : length (kjs c) = (nb + nn)%N.
Proof. by case: (cv_sizes CV). Qed.
Lemma kjs_sum (g : nat -> F) : \sum_(j <- kjs c) g j = \sum_(k < nb + nn) g (ix (kjs c) k).
Proof. by rewrite sum_list kjs_len. Qed.

(** R*W in terms of positions of js *)
Lemma RW_b (i b : 'I_nb) : \sum_(l < nw) kR c i l * mWx M l (ix (kjb c) b) = (i == b)%:R.
Proof. by have [_ H _ _] := cv_echelon CV; have [l _ _] := cv_sizes CV; rewrite H ?l ?ltn_ord. Qed.
Lemma kjn_len : (nn <= length (kjn c))%N.
Proof.
have [l1 l2 l3] := cv_sizes CV; have := congr1 (@length nat) (cv_order CV).
by rewrite !app_length l1 l2 !plusE -addnA => /addnI <-; apply: leq_addr.
Qed.
Lemma RW_n (i : 'I_nb) (j : 'I_nn) : \sum_(l < nw) kR c i l * mWx M l (ix (kjn c) j) = kSbn c i j.
Proof.
have [_ _ H _] := cv_echelon CV; have [l _ _] := cv_sizes CV; rewrite H ?l ?ltn_ord //.
exact: leq_trans (ltn_ord j) kjn_len.
Qed.
Lemma RW_p (i : 'I_nb) (k : 'I_np) : \sum_(l < nw) kR c i l * mWp M l k = kSbp c i k.
Proof. by have [_ _ _ H] := cv_echelon CV; have [l _ _] := cv_sizes CV; rewrite H ?l ?ltn_ord. Qed.

(** the rows of the master and of the canonical matrix agree *)
Lemma rows_agree (v : mvec F) (u : cvec F nb nn np) (J := canon_cmat np M c) :
  (forall k : 'I_(nb + nn), mx v (ix (kjs c) k) = vxs u k 0) -> (forall k : 'I_np, mp v k = vp u k 0) ->
  (forall k : 'I_(nb + nn), \sum_(l < nw) mWx M l (ix (kjs c) k) * mw v l =
      \sum_(b < nb) (\sum_(l < nw) kR c b l * mWx M l (ix (kjs c) k)) * vw u b 0) ->
  [/\ forall k : 'I_(nb + nn),
        \sum_(j <- kjs c) mHxx M (ix (kjs c) k) j * mx v j + \sum_(k' < np) mHxp M (ix (kjs c) k) k' * mp v k'
        + \sum_(l < nw) mWx M l (ix (kjs c) k) * mw v l =
        (cHss J *m vxs u + cHsp J *m vp u + col_mx (vw u) ((cS J)^T *m vw u)) k 0,
      forall l : 'I_np, \sum_(j <- kjs c) mVpx M l j * mx v j + \sum_(k < np) mVpp M l k * mp v k =
        (cVps J *m vxs u + cVpp J *m vp u) l 0
    & forall i : 'I_nb, \sum_(l < nw) kR c i l * Wrow np M (kjs c) v l =
        (usubmx (vxs u) + cS J *m dsubmx (vxs u) + cSp J *m vp u) i 0].
Proof.
move=> Vs Vp Vw; split.
- move=> k; rewrite [RHS]mxE [X in _ = X + _]mxE; congr (_ + _ + _).
  + by rewrite kjs_sum mxE; apply: eq_bigr => j _; rewrite Vs mxE.
  + by rewrite mxE; apply: eq_bigr => j _; rewrite Vp mxE.
  rewrite Vw; case: (split_ordP k) => j ->.
  + rewrite ix_kjs_b col_mxEu (bigD1 j) //= RW_b eqxx mul1r big1 ?addr0 // => b bj.
    by rewrite RW_b (negPf bj) mul0r.
  + rewrite ix_kjs_n col_mxEd mxE; apply: eq_bigr => b _.
    by rewrite RW_n !mxE.
- move=> l; rewrite [RHS]mxE; congr (_ + _).
  + by rewrite kjs_sum mxE; apply: eq_bigr => j _; rewrite Vs mxE.
  + by rewrite mxE; apply: eq_bigr => j _; rewrite Vp mxE.
- move=> i; rewrite /Wrow.
  have -> : \sum_(l < nw) kR c i l * (\sum_(j <- kjs c) mWx M l j * mx v j + \sum_(k < np) mWp M l k * mp v k) =
    \sum_(k < nb + nn) (\sum_(l < nw) kR c i l * mWx M l (ix (kjs c) k)) * vxs u k 0 +
    \sum_(k < np) (\sum_(l < nw) kR c i l * mWp M l k) * vp u k 0.
    rewrite (eq_bigr (fun l : 'I_nw => \sum_(k < nb + nn) kR c i l * mWx M l (ix (kjs c) k) * vxs u k 0 +
                                  \sum_(k < np) kR c i l * mWp M l k * vp u k 0)); last first.
      move=> l _; rewrite mulrDr !mulr_sumr kjs_sum; congr (_ + _); apply: eq_bigr => k _.
        by rewrite Vs mulrA.
      by rewrite Vp mulrA.
    rewrite big_split /=; congr (_ + _); rewrite exchange_big /=; apply: eq_bigr => k _; by rewrite mulr_suml.
  rewrite big_split_ord [RHS]mxE [X in _ = X + _]mxE; congr (_ + _); last first.
    by rewrite mxE; apply: eq_bigr => k _; rewrite RW_p mxE.
  congr (_ + _).
    rewrite (bigD1 i) // ix_kjs_b RW_b eqxx mul1r big1; first by rewrite /= addr0 mxE.
    move=> b bi.
    by rewrite ix_kjs_b RW_b eq_sym (negPf bi) mul0r.
  by rewrite mxE; apply: eq_bigr => j _; rewrite ix_kjs_n RW_n !mxE.
Qed.

Variables (a : mvec F) (u0 : rawvec F) (u : cvec F nb nn np).
Let r := master_result a u0 u.

Lemma res_s (k : 'I_(nb + nn)) : mx r (ix (kjs c) k) = vxs u k 0.
Proof.
have kl : (k < length (kjs c))%coq_nat by rewrite kjs_len; apply/ssrnat.ltP; apply: ltn_ord.
rewrite /r /= posn_None; last by apply: view_disj; apply: nth_In.
by rewrite posn_ix ?rawcolE //; apply: view_nodup_s.
Qed.
Lemma res_u i : In i (kju c) -> mx r i = mx a i.
Proof. by move/In_ix => [t tl <-]; rewrite /r /= posn_ix //; apply: view_nodup_u. Qed.
Lemma res_p (k : 'I_np) : mp r k = vp u k 0.
Proof. by rewrite /r /= rawcolE. Qed.
Lemma res_w (k : 'I_(nb + nn)) : \sum_(l < nw) mWx M l (ix (kjs c) k) * mw r l =
   \sum_(b < nb) (\sum_(l < nw) kR c b l * mWx M l (ix (kjs c) k)) * vw u b 0.
Proof.
rewrite (eq_bigr (fun l : 'I_nw => \sum_(b < nb) kR c b l * mWx M l (ix (kjs c) k) * vw u b 0)); last first.
  by move=> l _; rewrite /= mulr_sumr; apply: eq_bigr => b _; rewrite mulrA [mWx _ _ _ * _]mulrC.
by rewrite exchange_big; apply: eq_bigr => b _; rewrite mulr_suml.
Qed.

Lemma canonical_master : canonical_eqs (canon_cmat np M c) (canon_rhs np nw c a) u -> master_eqs np nw M c a r.
Proof.
have [R1 R2 R3] := rows_agree res_s res_p res_w; move=> [E1 E2 E3]; split.
- move=> i /In_ix [t tl <-]; move: tl; rewrite kjs_len => /ssrnat.ltP tl.
  by have := R1 (Ordinal tl) => /= ->; rewrite E1 mxE.
- exact: res_u.
- by move=> l lp; have := R2 (Ordinal lp) => /= ->; rewrite E2 mxE.
- by move=> i il; have := R3 (Ordinal il) => /= ->; rewrite E3 mxE.
Qed.

(** a consistent master system with as many basic variables as the rank of Wx *)
Lemma master_all_rows (K : rawmx F) (v : mvec F) :
  (forall l j, (l < nw)%N -> (j < nx)%N -> mWx M l j = \sum_(b < nb) K l b * (\sum_(l' < nw) kR c b l' * mWx M l' j)) ->
  nonsingular (canon_cmat np M c) -> master_eqs np nw M c a v -> all_W_rows np nw M c a v ->
  canonical_eqs (canon_cmat np M c) (canon_rhs np nw c a) u -> all_W_rows np nw M c a r.
Proof.
move=> HK N [V1 V2 V3 V4] VA Hu.
pose u' : cvec F nb nn np := CVec (\col_k mx v (ix (kjs c) k)) (\col_k mp v k) (\col_b \sum_(l < nw) K l b * mw v l).
have In_kjs (k : 'I_(nb + nn)) : In (ix (kjs c) k) (kjs c).
  by apply: nth_In; rewrite kjs_len; apply/ssrnat.ltP; apply: ltn_ord.
have [||| R1 R2 R3] := @rows_agree v u'; try by move=> k; rewrite mxE.
  move=> k.
  rewrite (eq_bigr (fun l : 'I_nw => \sum_(b < nb) (\sum_(l' < nw) kR c b l' * mWx M l' (ix (kjs c) k)) * (K l b * mw v l))); last first.
    move=> l _; rewrite HK //; last by have /(cv_stable CV) [] := In_kjs k.
    by rewrite mulr_suml; apply: eq_bigr => b _; rewrite mulrAC mulrC.
  by rewrite exchange_big; apply: eq_bigr => b _; rewrite /= mxE mulr_sumr.
have Hu' : canonical_eqs (canon_cmat np M c) (canon_rhs np nw c a) u'.
  split; apply/colP => k.
  - by rewrite -R1 V1 ?mxE.
  - by rewrite -R2 V3 ?mxE.
  - by rewrite -R3 V4 ?mxE.
have E := eqs_unique N Hu Hu'.
move=> l lw; rewrite -(VA l lw) /Wrow !kjs_sum; congr (_ + _); apply: eq_bigr => k _; congr (_ * _).
  by rewrite res_s E mxE.
by rewrite res_p E mxE.
Qed.
End Master.
