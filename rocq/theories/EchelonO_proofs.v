(** Proofs for C82: the echelonizer as an object. *)
From Coq Require Import List PeanoNat Permutation Lia.
From mathcomp Require Import all_ssreflect all_fingroup all_algebra.
From Verif Require Import Index_model Echelon_model Echelon_spec Echelon_proofs EchelonOpt_proofs EchelonExt_model EchelonExt_spec EchelonExt_proofs.
From Verif Require Import Canonical_model Canonical_spec Canonical_proofs EchelonW_model EchelonW_proofs EchelonO_model EchelonO_spec.
Set Implicit Arguments.
Unset Strict Implicit.
Unset Printing Implicit Defensive.
Import Order.TTheory GRing.Theory Num.Theory.
Local Open Scope ring_scope.
Local Open Scope list_scope.
Local Notation "l ++ l'" := (List.app l l') : seq_scope.
Local Notation canon := Echelon_proofs.canon.

Lemma mxof_rawm (F : realFieldType) p q (X : 'M[F]_(p, q)) : mxof p q (rawm X) = X.
Proof. by apply/matrixP => i j; rewrite mxE rawmE. Qed.

(** ** The view of a form R*W*Q = [I S] *)
Section Form.
Variables (F : realFieldType) (nb nn nx np nw : nat) (R : 'M[F]_(nb, nw)) (S : 'M[F]_(nb, nn)) (Q : 'I_(nb + nn) -> 'I_nx).
Variables (W : 'M[F]_(nw, nx)) (Wp : 'M[F]_(nw, np)) (M : mmat F).
Hypothesis HN : (nb + nn)%N = nx.
Let jb := List.map (fun i => nat_of_ord (Q (lshift nn i))) (enum 'I_nb).
Let jn := List.map (fun i => nat_of_ord (Q (rshift nb i))) (enum 'I_nn).

Lemma form_perm : injective Q -> Permutation (indices nx) (jb ++ jn).
Proof.
move=> QI.
have lb : length jb = nb by apply: length_enum_map.
have ln : length jn = nn by apply: length_enum_map.
have N : NoDup (jb ++ jn).
  have -> : jb ++ jn = List.map (fun t : 'I_(nb + nn) => nat_of_ord (Q t)) (enum 'I_(nb + nn)).
    apply: (nth_ext _ _ 0%N 0%N); first by rewrite app_length lb ln length_enum_map.
    move=> t; rewrite app_length lb ln => /ssrnat.ltP tl.
    pose o : 'I_(nb + nn) := Ordinal tl; rewrite -[t]/(nat_of_ord o) -/(ix _ _) -/(ix _ _) ix_enum; clearbody o; clear.
    case: (split_ordP o) => k ->.
      rewrite /ix app_nth1; first by rewrite -/(ix _ _) ix_enum.
      by rewrite length_enum_map; apply/ssrnat.ltP; exact: (ltn_ord k).
    rewrite /ix app_nth2; last by rewrite length_enum_map; apply/ssrnat.leP; apply: leq_addr.
    by rewrite length_enum_map minusE /= addKn -/(ix _ _) ix_enum.
  apply: FinFun.Injective_map_NoDup => [s t /val_inj /QI //|].
  have := enum_uniq 'I_(nb + nn); elim: (enum _) => [|y s IH] /=; first by constructor.
  case/andP=> ys us; constructor; last exact: IH.
  move=> H; move/negP: ys; apply; elim: s H {us IH} => //= z s IH [->|/IH]; first by rewrite mem_head.
  by rewrite inE => ->; rewrite orbT.
apply: Permutation_sym; apply: NoDup_Permutation_bis => //.
  by rewrite app_length lb ln seq_length; apply/ssrnat.leP; rewrite -HN.
by move=> j /(@in_app_or _ _ _ _) [] /in_map_iff [k [<- _]]; apply/in_seq; split; try lia; apply/ssrnat.ltP; exact: ltn_ord.
Qed.

Lemma form_echelon : injective Q -> R *m colsub Q W = row_mx 1%:M S ->
  (forall l j, (l < nw)%N -> (j < nx)%N -> mWx M l j = rawm W l j) ->
  (forall l k, (l < nw)%N -> (k < np)%N -> mWp M l k = rawm Wp l k) ->
  echelon_form nx np nw M (rawm R) (rawm S) (rawm (R *m Wp)) jb jn.
Proof.
move=> QI E HW HP.
have lb : length jb = nb by apply: length_enum_map.
have ln : length jn = nn by apply: length_enum_map.
have WE (l : 'I_nw) (j : 'I_nx) : mWx M l j = W l j by rewrite HW // rawmE.
have PE (l : 'I_nw) (j : 'I_np) : mWp M l j = Wp l j by rewrite HP // rawmE.
have RWE (i : 'I_nb) (t : 'I_(nb + nn)) : \sum_(l < nw) rawm R i l * mWx M l (Q t) = row_mx 1%:M S i t.
  rewrite -E mxE; apply: eq_bigr => l _.
  by rewrite WE /= rawmE [in RHS]mxE.
split.
- exact: form_perm.
- move=> i k; rewrite lb => il kl; rewrite -[i]/(nat_of_ord (Ordinal il)) -[k]/(nat_of_ord (Ordinal kl)) ix_enum.
  by rewrite RWE row_mxEl mxE.
- move=> i k; rewrite lb ln => il kl; rewrite -[i]/(nat_of_ord (Ordinal il)) -[k]/(nat_of_ord (Ordinal kl)) ix_enum.
  by rewrite RWE row_mxEr rawmE.
- move=> i k; rewrite lb => il kl; rewrite -[i]/(nat_of_ord (Ordinal il)) -[k]/(nat_of_ord (Ordinal kl)).
  rewrite rawmE mxE; apply: eq_bigr => l _.
  by rewrite PE rawmE.
Qed.
End Form.

Lemma resolved_0 (F : realFieldType) nb md nn w (e : ech F nb md nn) rows : pivots_resolved 0 w e rows.
Proof.
elim: rows e => [//|i rows IH] e /=; split; last exact: IH.
by move=> j; rewrite normr_gt0; case: (altP (eS e i j =P 0)) => [|_]; [left | right].
Qed.

(** ** Coefficients that are zero or above the threshold *)
Section Resolved.
Variables (F : realFieldType) (th : F).
Lemma resolved_by_0 m n (W : rawmx F) : resolved_by 0 m n W.
Proof.
move=> jb V _ _ _ i j _ _ /=; set c := \sum_(l < m) _.
by case: (altP (c =P 0)) => [|nz]; [left | right; rewrite normr_gt0].
Qed.
Lemma resolved_form nb nn nw nx (W : rawmx F) (R : 'M[F]_(nb, nw)) (S : 'M[F]_(nb, nn)) (Q : 'I_(nb + nn) -> 'I_nx) :
  R *m colsub Q (mxof nw nx W) = row_mx 1%:M S -> \rank (mxof nw nx W) = nb -> resolved_by th nw nx W ->
  forall i j, S i j = 0 \/ th < `|S i j|.
Proof.
move=> E RK H i j.
pose jb := List.map (fun i => nat_of_ord (Q (lshift nn i))) (enum 'I_nb).
have lb : length jb = nb by apply: length_enum_map.
have RWE (k : 'I_nb) (t : 'I_(nb + nn)) : \sum_(l < nw) rawm R k l * W l (Q t) = row_mx 1%:M S k t.
  rewrite -E mxE; apply: eq_bigr => l _.
  by rewrite rawmE !mxE.
have := H jb (rawm R); rewrite lb RK => /(_ (erefl _)) K.
have {K} := K _ _ i (Q (rshift nb j)) (ltn_ord _) (ltn_ord _); rewrite RWE row_mxEr; apply.
  by move=> k kl; rewrite -[k]/(nat_of_ord (Ordinal kl)) -/(ix _ _) ix_enum; exact: ltn_ord.
move=> a b al bl; rewrite -[b]/(nat_of_ord (Ordinal bl)) -[a]/(nat_of_ord (Ordinal al)) -/(ix _ _) ix_enum.
by rewrite RWE row_mxEl mxE.
Qed.
Lemma resolved_canon nb md nn (W : rawmx F) w rows (e : ech F nb md nn) : 0 <= th ->
  \rank (mxof (nb + md) (nb + nn) W) = nb -> resolved_by th (nb + md) (nb + nn) W -> canon (mxof _ _ W) e -> pivots_resolved th w e rows.
Proof.
move=> th0 RK H; elim: rows e => [//|i rows IH] e C /=; split; last by apply: IH; exact: pass_canon.
by move=> j; have [_ _ E] := C; exact: (resolved_form E RK H).
Qed.
Lemma resolved_ext nbA mdA nbJ mdJ nnJ (A : 'M[F]_(nbA + mdA, nbA + (nbJ + nnJ))) (J : 'M[F]_(nbJ + mdJ, nbA + (nbJ + nnJ)))
    (W : rawmx F) (eA : ech F nbA mdA (nbJ + nnJ)) w rows (eJ : ech F nbJ mdJ nnJ) : 0 <= th ->
  mxof _ _ W = col_mx A J -> \rank (col_mx A J) = (nbA + nbJ)%N -> resolved_by th ((nbA + mdA) + (nbJ + mdJ)) (nbA + (nbJ + nnJ)) W ->
  canon A eA -> canon (J2of eA J) eJ -> pivots_resolved th w eJ rows.
Proof.
move=> th0 WE RK H CA; elim: rows eJ => [//|i rows IH] eJ C /=; split; last by apply: IH; exact: pass_canon.
move=> j; have [_ _ E] := assemble_canon CA C; rewrite -WE in E RK.
have := resolved_form E RK H (rshift nbA i) j; by rewrite [xS _]/= col_mxEd.
Qed.
End Resolved.

(** ** Casts *)
Lemma cast_canon (F : realFieldType) nb md n n' (E : n = n') (A : rawmx F) (e : ech F nb md n) :
  canon (mxof _ _ A) e -> canon (mxof _ _ A) (ech_cast E e).
Proof. by case: n' / E. Qed.
Lemma cast_J2 (F : realFieldType) nbA mdA nbJ mdJ nnJ n nz (E : n = (nbJ + nnJ)%N) (EZ : nz = (nbJ + mdJ)%N) (eA : ech F nbA mdA n) (J : rawmx F) :
  J2of (ech_cast E eA) (mxof (nbJ + mdJ) (nbA + (nbJ + nnJ)) J) = mxof _ _ (rawm (@J2of F nbA mdA 0 nz n eA (mxof _ _ J))).
Proof. by subst nz; subst n; rewrite /ech_cast /= mxof_rawm. Qed.
Lemma cast_Q (F : realFieldType) nb md n n' (E : n = n') (e : ech F nb md n) (j : 'I_n') :
  nat_of_ord (eQ (ech_cast E e) (rshift nb j)) = eQ e (rshift nb (cast_ord (esym E) j)).
Proof. by case: n' / E j => j /=; rewrite cast_ord_id. Qed.
Lemma rank_mxof (F : realFieldType) (W : rawmx F) m n m' n' : m = m' -> n = n' -> \rank (mxof m n W) = \rank (mxof m' n' W).
Proof. by move=> -> ->. Qed.
Lemma cast_opt (F : realFieldType) nb md n n' (E : n = n') (w : rawvec F) (e : ech F nb md n) :
  exchange_optimal (fun j => w j) e -> exchange_optimal (fun j => w j) (ech_cast E e).
Proof. by case: n' / E. Qed.

(** the two-stage form has the rank of [A; J] *)
Lemma ext_rank (F : realFieldType) nbA mdA nbJ mdJ nnJ (A : 'M[F]_(nbA + mdA, nbA + (nbJ + nnJ))) (J : 'M[F]_(nbJ + mdJ, nbA + (nbJ + nnJ)))
    (eA : ech F nbA mdA (nbJ + nnJ)) (eJ : ech F nbJ mdJ nnJ) :
  canon A eA -> canon (J2of eA J) eJ -> \rank A = nbA -> \rank (J2of eA J) = nbJ -> \rank (col_mx A J) = (nbA + nbJ)%N.
Proof.
move=> CA CJ rA rJ.
have [XI XF XE] := assemble_canon CA CJ.
set x := ext_assemble eA eJ J in XI XF XE.
apply/eqP; rewrite eqn_leq; apply/andP; split.
- have [QI UA EA] := CA.
  have cs k (X : 'M[F]_(k, nbA + (nbJ + nnJ))) : \rank (colsub (eQ eA) X) = \rank X.
    have -> : colsub (eQ eA) X = col_perm (perm QI) X by apply/matrixP => i j; rewrite !mxE permE.
    by rewrite col_permE mxrankMfree // row_free_unit unitmx_perm.
  rewrite -cs.
  have -> : colsub (eQ eA) (col_mx A J) = col_mx (colsub (eQ eA) A) (colsub (eQ eA) J).
    by apply/matrixP => i j; rewrite !mxE; case: (split i) => k; rewrite !mxE.
  have EJ : colsub (eQ eA) J = J1of eA J *m eR eA *m colsub (eQ eA) A + row_mx 0 (J2of eA J).
    rewrite -mulmxA EA mul_mx_row mulmx1 add_row_mx addr0 /J2of addrC subrK; exact/esym/hsubmxK.
  have S1 : (col_mx (colsub (eQ eA) A) (colsub (eQ eA) J) <= colsub (eQ eA) A + row_mx 0 (J2of eA J))%MS.
    rewrite col_mx_sub addsmxSl /= {1}EJ addmx_sub //.
      by apply: submx_trans (submxMl _ _) (addsmxSl _ _).
    exact: addsmxSr.
  apply: leq_trans (mxrankS S1) _; apply: leq_trans (mxrank_adds_leqif _ _) _.
  have r0 : \rank (row_mx 0 (J2of eA J) : 'M_(_, nbA + (nbJ + nnJ))) = nbJ.
    rewrite -[RHS]rJ -(mxrank_tr (row_mx _ _)) tr_row_mx trmx0 rank_col_0mx mxrank_tr //.
  by rewrite cs r0 rA.
- have : (\rank (row_mx 1%:M (xS x) : 'M[F]_(nbA + nbJ, (nbA + nbJ) + nnJ)) <= \rank (col_mx A J))%N.
    rewrite -XE; apply: leq_trans (mxrankM_maxr _ _) _.
    have -> : colsub (xQ x) (col_mx A J) = col_mx A J *m \matrix_(a, b) (a == xQ x b)%:R.
      apply/matrixP => i j; rewrite mxE [RHS]mxE (bigD1 (xQ x j)) //= mxE eqxx mulr1 big1 ?addr0 // => k /negPf H.
      by rewrite [X in _ * X]mxE H mulr0.
    exact: mxrankM_maxl.
  suff -> : \rank (row_mx 1%:M (xS x) : 'M[F]_(nbA + nbJ, (nbA + nbJ) + nnJ)) = (nbA + nbJ)%N by [].
  apply/eqP; rewrite eqn_leq rank_leq_row /=.
  rewrite -{1}(mxrank1 F (nbA + nbJ)).
  have {1}-> : (1%:M : 'M[F]_(nbA + nbJ)) = row_mx 1%:M (xS x) *m col_mx 1%:M 0 by rewrite mul_row_col mul1mx mulmx0 addr0.
  exact: mxrankM_maxl.
Qed.

(** ** The object *)
Section Obj.
Variables (F : realFieldType) (lu : lu_impl F) (srt : sort_impl F) (th sigma : F).
Hypothesis (LC : lu_correct lu) (SC : sort_correct srt) (th0 : 0 <= th).
Variables (ny nx nz np : nat) (A : rawmx F).
Local Notation rA := (lr (lu ny nx A)).
Local Notation nA := (nx - rA)%N.

Definition okk nb md nn (W : rawmx F) (s : echk F nb md nn) : Prop :=
  [/\ canon (mxof _ _ W) (ke s), injective (kKb s) & injective (kKn s)].
Lemma k_compute_ok nb md nn W (f : lufactors F nb md nn) : lu_contract (mxof _ _ W) f -> okk W (k_compute f).
Proof. by move=> c; split=> //; apply: compute_canon. Qed.
Lemma k_weights_ok nb md nn W w (s : echk F nb md nn) : okk W s -> okk W (k_weights srt th w s).
Proof.
case=> C Ib In; have [Jb _] := SC (fun i => w (eQ (weight_swaps th w (ke s)) (lshift nn i))) Ib.
have [Jn _] := SC (fun i => w (eQ (weight_swaps th w (ke s)) (rshift nb i))) In.
by split=> //; apply: order_canon => //; apply: swaps_canon.
Qed.
Definition jok (j : jstate lu ny nx nz A) : Prop :=
  okk (rawm (jM j)) (jk j) /\ \rank (mxof (jr j + (nz - jr j)) (jr j + (nA - jr j)) (rawm (jM j))) = jr j.
Definition sok (s : ostate lu ny nx nz A) : Prop :=
  okk A (oA s) /\ forall j, oJ s = Some j -> jok j.

Lemma init_ok : sok (o_init lu ny nx nz A).
Proof. by split=> //; apply: k_compute_ok; apply: LC. Qed.
Lemma j_compute_ok old J2 : (forall j, old = Some j -> jok j) -> jok (j_compute old J2) /\ jM (j_compute old J2) = J2.
Proof.
move=> H; have N : jok (let f := lu nz nA (rawm J2) in JState J2 (lrm f) (lrn f) (k_compute (lf f))).
  split; first by apply: k_compute_ok; apply: LC.
  by apply: lu_rank; apply: LC.
by rewrite /j_compute; case: old H => [j|] H //; case: eqP => [E|_] //; split=> //; apply: H.
Qed.
Lemma j_weights_ok j w : jok j -> jok (j_weights srt th j w).
Proof. by case=> O R; split=> //; apply: k_weights_ok. Qed.

Lemma update_ok s J w : sok s -> let s' := o_update srt th s J w in sok s' /\
  ((nz * nx)%N <> 0%N -> exists j, oJ s' = Some j /\ jM j = o_J2 nz (ke (oA s')) J).
Proof.
move=> [HA HJ]; rewrite /o_update; case: eqP => Z /=.
  by split=> //; split=> //=; apply: k_weights_ok.
set kA := k_weights _ _ _ _.
have [K1 K2] := j_compute_ok (o_J2 nz (ke kA) J) HJ.
split; last by move=> _; eexists; split; first by [].
by split=> /=; [apply: k_weights_ok | move=> j [<-]; apply: j_weights_ok].
Qed.
Lemma run_ok h : sok (o_run lu srt th ny nx nz A h).
Proof.
rewrite /o_run; elim: h (o_init lu ny nx nz A) init_ok => [|a h IH] s H //=.
by apply: IH; have [] := update_ok a.1 a.2 H.
Qed.
Lemma run_last h J w :  let s := o_run lu srt th ny nx nz A (h ++ List.cons (J, w) nil) in
  (nz * nx)%N <> 0%N -> exists j, oJ s = Some j /\ jM j = o_J2 nz (ke (oA s)) J.
Proof.
rewrite /o_run List.fold_left_app /=; apply update_ok; exact: run_ok.
Qed.

Lemma srt_inj k (v : 'I_k -> F) : injective (srt v id).
Proof. by have [] := SC v (fun x y (e : id x = id y) => e). Qed.
(** the form of the extended echelonizer *)
Lemma o_ext_ok s j J w : sok s -> oJ s = Some j -> jM j = o_J2 nz (ke (oA s)) J ->
  xcanon (mxof _ _ A) (mxof _ _ J) (o_ext srt (oA s) j J w) /\
  \rank (col_mx (mxof (rA + (ny - rA)) (rA + (jr j + (nA - jr j))) A) (mxof (jr j + (nz - jr j)) _ J)) = (rA + jr j)%N.
Proof.
move=> [[CA _ _] HJ] Ej EM; have [[CJ _ _] RJ] := HJ j Ej.
have EZ : nz = (jr j + (nz - jr j))%N by rewrite subnKC // jrm.
have CA' := cast_canon (esym (subnKC (jrn j))) CA.
have J2E : J2of (ech_cast (esym (subnKC (jrn j))) (ke (oA s))) (mxof (jr j + (nz - jr j)) _ J) = mxof _ _ (rawm (jM j)).
  by rewrite EM; apply: cast_J2 EZ _ _.
have CJ' : canon (J2of (ech_cast (esym (subnKC (jrn j))) (ke (oA s))) (mxof (jr j + (nz - jr j)) _ J)) (ke (jk j)) by rewrite J2E.
split.
  by apply: ext_order_canon; [exact: srt_inj | exact: srt_inj | exact: assemble_canon].
apply: (ext_rank CA' CJ'); last by rewrite J2E.
rewrite -[RHS](lu_rank (LC ny nx A)); apply: rank_mxof => //; by rewrite subnKC // jrn.
Qed.

Lemma descending_enum k (v : nat -> F) (g : 'I_k -> nat) :
  (forall i j : 'I_k, (i <= j)%N -> v (g j) <= v (g i)) -> descending v (List.map g (enum 'I_k)).
Proof.
move=> H i j ij; rewrite length_enum_map => jk.
have ik := leq_ltn_trans ij jk.
by rewrite -[i]/(nat_of_ord (Ordinal ik)) -[j]/(nat_of_ord (Ordinal jk)) -![List.nth _ _ _]/(ix _ _) !ix_enum; apply: H.
Qed.

Lemma ext_order_l nbA mdA nbJ mdJ nnJ (x : xech F nbA mdA nbJ mdJ nnJ) Kb Kn i : xQ (ext_order x Kb Kn) (lshift nnJ i) = xQ x (lshift nnJ (Kb i)).
Proof. by rewrite [LHS]/= split_lshift_inl. Qed.
Lemma ext_order_r nbA mdA nbJ mdJ nnJ (x : xech F nbA mdA nbJ mdJ nnJ) Kb Kn i : xQ (ext_order x Kb Kn) (rshift _ i) = xQ x (rshift _ (Kn i)).
Proof. by rewrite [LHS]/= split_rshift_inr. Qed.

Section View.
Variables (h : list (rawmx F * rawvec F)) (Wx Wp : rawmx F) (w : rawvec F) (M : mmat F).
Hypothesis WA : forall i j, (i < ny)%N -> (j < nx)%N -> Wx i j = A i j.
Hypotheses (M1 : mWx M = Wx) (M2 : mWp M = Wp).
Let q := (o_ech lu srt th sigma ny nx nz np A h Wx Wp w).2.
Let J : rawmx F := fun i j => Wx (ny + i)%N j.
Let s0 := o_run lu srt th ny nx nz A h.
Let s := o_update srt th s0 J w.

Lemma qE : q = o_view srt sigma np s J Wp w.
Proof. by rewrite /q /o_ech /= /o_run List.fold_left_app. Qed.
Lemma s_ok : sok s. Proof. by have [] := update_ok J w (run_ok h). Qed.
Let EN1 : (rA + nA)%N = nx. Proof. by rewrite subnKC // lrn. Qed.
Let EN2 : (rA + (ny - rA))%N = ny. Proof. by rewrite subnKC // lrm. Qed.

(** J has no entries *)
Lemma view_empty : (nz * nx)%N = 0%N ->
  [/\ echelon_form nx np (ny + nz) M (qR q) (qSbn q) (qSbp q) (qjb q) (qjn q),
      length (qjb q) = \rank (mxof (ny + nz) nx Wx),
      descending w (qjb q) & descending w (qjn q)].
Proof.
move=> Z; rewrite qE /o_view Z eqxx.
have [[C _ _] _] := s_ok; have [QI _ E] := C.
have cl : ech_clean sigma (ke (oA s)) = ke (oA s) by case: (ke _) => ? ? ? ?; rewrite /ech_clean /= !clean_id.
rewrite /o_view0 cl clean_id /=.
have WR : \rank (mxof (ny + nz) nx Wx) = rA.
  move/eqP: Z; rewrite muln_eq0 => /orP [/eqP z0|/eqP z0].
    rewrite -[RHS](lu_rank (LC ny nx A)) z0 addn0; rewrite -(rank_mxof A (esym EN2) (esym EN1)).
    by congr (\rank _); apply/matrixP => i j; rewrite !mxE; apply: WA.
  have : (rA <= nx)%N by apply: lrn.
  rewrite [X in (_ <= X)%N]z0 leqn0 => /eqP ->; apply/eqP; rewrite -leqn0 -[X in (_ <= X)%N]z0; exact: rank_leq_col.
split.
- have [z0|nz0] := eqVneq nz 0%N.
    have EWz : (ny + nz)%N = (rA + (ny - rA))%N by rewrite z0 addn0 EN2.
    rewrite [X in echelon_form X _ _](_ : nx = (rA + nA)%N) // [X in echelon_form _ _ X]EWz.
    have H := @form_echelon F rA nA (rA + nA) np _ (eR (ke (oA s))) (eS (ke (oA s))) (eQ (ke (oA s))) (mxof _ _ A) (mxof _ _ Wp) M (erefl _) QI E.
    apply: H => l j ll jl.
      have ll' : (l < ny)%N by move: (ll); rewrite [X in (_ < X)%N]EN2.
      have jl' : (j < nx)%N by move: (jl); rewrite [X in (_ < X)%N]EN1.
      by rewrite M1 WA // -[l]/(nat_of_ord (Ordinal ll)) -[j]/(nat_of_ord (Ordinal jl)) rawmE mxE.
    by rewrite M2 -[l]/(nat_of_ord (Ordinal ll)) -[j]/(nat_of_ord (Ordinal jl)) rawmE mxE.
  move/eqP: Z; rewrite muln_eq0 (negPf nz0) /= => /eqP z0.
  have r0 : rA = 0%N by apply/eqP; rewrite -leqn0 -[X in (_ <= X)%N]z0; exact: lrn.
  split; [|by move=> i k; rewrite length_enum_map [X in (_ < X)%N -> _]r0..].
  rewrite [X in indices X](_ : nx = (rA + nA)%N) //; exact: form_perm.
- by rewrite length_enum_map WR.
- apply: descending_enum => i j ij.
  have [K1 _] := @weights_sorted F rA (ny - rA) nA th (fun j => w j) (ke (oA s0)) (kKb (oA s)) (kKn (oA s)).
  have Es : ke (oA s) = ech_weights th (fun j => w j) (ke (oA s0)) (kKb (oA s)) (kKn (oA s)).
    by rewrite /s /o_update Z.
  rewrite Es; apply: K1 => //.
  rewrite /s /o_update Z /=; apply: SC; by have [[]] := run_ok h.
- apply: descending_enum => i j ij.
  have [_ K1] := @weights_sorted F rA (ny - rA) nA th (fun j => w j) (ke (oA s0)) (kKb (oA s)) (kKn (oA s)).
  have Es : ke (oA s) = ech_weights th (fun j => w j) (ke (oA s0)) (kKb (oA s)) (kKn (oA s)).
    by rewrite /s /o_update Z.
  rewrite Es; apply: K1 => //.
  rewrite /s /o_update Z /=; apply: SC; by have [[]] := run_ok h.
Qed.

Lemma view_full : (nz * nx)%N <> 0%N ->
  [/\ echelon_form nx np (ny + nz) M (qR q) (qSbn q) (qSbp q) (qjb q) (qjn q),
      length (qjb q) = \rank (mxof (ny + nz) nx Wx),
      descending w (qjb q) & descending w (qjn q)].
Proof.
move=> Z; have [_ /(_ Z) [j [Ej EM]]] := update_ok J w (run_ok h); rewrite -/s0 -/s in Ej EM.
rewrite qE /o_view Ej; case: (altP ((nz * nx)%N =P 0%N)) => // _.
have [[QI _ E] RK] := o_ext_ok w s_ok Ej EM.
have EX : (rA + (jr j + (nA - jr j)))%N = nx by rewrite subnKC ?jrn // EN1.
have EW : ((rA + (ny - rA)) + (jr j + (nz - jr j)))%N = (ny + nz)%N by rewrite EN2 subnKC // jrm.
have MW : mxof (rA + (ny - rA) + (jr j + (nz - jr j))) (rA + (jr j + (nA - jr j))) Wx = col_mx (mxof _ _ A) (mxof _ _ J).
  apply/matrixP => a b; rewrite [LHS]mxE.
  have bl : (b < nx)%N by rewrite -[X in (_ < X)%N]EX.
  case: (split_ordP a) => k ->; rewrite ?col_mxEu ?col_mxEd [RHS]mxE.
    have kl : (k < ny)%N by rewrite -[X in (_ < X)%N]EN2.
    by rewrite [nat_of_ord (lshift _ _)]/= WA.
  by rewrite /J /= EN2.
set x := o_ext _ _ _ _ _ in QI E *.
have V : ew_view sigma x (mxof _ np Wp) = RWQ (rawm (xR x)) (rawm (xS x)) (rawm (xR x *m mxof _ np Wp))
      (List.map (fun i => nat_of_ord (xQ x (lshift _ i))) (enum 'I_(rA + jr j))) (List.map (fun i => nat_of_ord (xQ x (rshift _ i))) (enum 'I_(nA - jr j))).
  by rewrite /ew_view /ext_clean /= !clean_id.
pose y := ext_assemble (ech_cast (esym (subnKC (jrn j))) (ke (oA s))) (ke (jk j)) (mxof (jr j + (nz - jr j)) (rA + (jr j + (nA - jr j))) J).
have Ex : x = ext_order y (srt (fun i => w (xQ y (lshift _ i))) id) (srt (fun i => w (xQ y (rshift _ i))) id) by [].
rewrite V [qR _]/= [qSbn _]/= [qSbp _]/= [qjb _]/= [qjn _]/=; split.
- rewrite -[X in echelon_form _ _ X]EW -[X in echelon_form X _ _]EX.
  apply: form_echelon QI E _ _ => [|l k ll kl|l k ll kl]; first by rewrite addnA.
    by rewrite M1 -[l]/(nat_of_ord (Ordinal ll)) -[k]/(nat_of_ord (Ordinal kl)) rawmE -MW [RHS]mxE.
  by rewrite M2 -[l]/(nat_of_ord (Ordinal ll)) -[k]/(nat_of_ord (Ordinal kl)) rawmE mxE.
- by rewrite length_enum_map -(rank_mxof Wx EW EX) MW RK.
- apply: (@descending_enum _ w (fun i => nat_of_ord (xQ x (lshift _ i)))) => a b ab; rewrite Ex.
  rewrite !ext_order_l; by have [_] := SC (fun i => w (xQ y (lshift _ i))) (fun x y (e : id x = id y) => e); apply.
- apply: (@descending_enum _ w (fun i => nat_of_ord (xQ x (rshift _ i)))) => a b ab; rewrite Ex.
  rewrite !ext_order_r; by have [_] := SC (fun i => w (xQ y (rshift _ i))) (fun x y (e : id x = id y) => e); apply.
Qed.

(** no exchange improves the basis, when every nonzero coefficient is above the threshold *)
Lemma view_resolved : resolved_by th ny nx A -> resolved_by th (ny + nz) nx Wx -> forall i k, (i < length (qjb q))%N -> (k < length (qjn q))%N ->
  qSbn q i k != 0 -> w (ix (qjn q) k) <= w (ix (qjb q) i).
Proof.
move=> HA HW; rewrite qE /o_view.
have RA : \rank (mxof (rA + (ny - rA)) (rA + nA) A) = rA by apply: lu_rank; exact: LC.
have OA : exchange_optimal (fun j => w j) (ke (oA s)).
  have -> : ke (oA s) = ech_weights th (fun j => w j) (ke (oA s0)) (kKb (oA s)) (kKn (oA s)) by rewrite /s /o_update; case: ifP.
  apply: weights_opt => //; have [[C _ _] _] := run_ok h.
  by apply: resolved_canon C => //; rewrite [X in resolved_by _ X]EN2 EN1.
case: (altP ((nz * nx)%N =P 0%N)) => [Z|/eqP Z].
  have cl : ech_clean sigma (ke (oA s)) = ke (oA s) by case: (ke _) => ? ? ? ?; rewrite /ech_clean /= !clean_id.
  rewrite /o_view0 cl /= => i k; rewrite !length_enum_map => il kl.
  by rewrite -[i]/(nat_of_ord (Ordinal il)) -[k]/(nat_of_ord (Ordinal kl)) !ix_enum rawmE; apply: OA.
have Ej : oJ s = Some (j_weights srt th (j_compute (oJ s0) (o_J2 nz (ke (oA s)) J)) (fun j => w (eQ (ke (oA s)) (rshift rA j)))).
  by rewrite /s /o_update; case: eqP.
rewrite Ej; set j0 := j_compute _ _; set j := j_weights _ _ _ _.
have RJ w1 : pivots_resolved th w1 (ke (jk j0)) (enum 'I_(jr j0)).
  have [[C _ _] _] := s_ok.
  have [K1 K2] := j_compute_ok (o_J2 nz (ke (oA s)) J) (proj2 (run_ok h)); rewrite -/s0 -/j0 in K1 K2.
  have [[CJ _ _] RKJ] := K1.
  have EZ : nz = (jr j0 + (nz - jr j0))%N by rewrite subnKC // jrm.
  have EX : (rA + (jr j0 + (nA - jr j0)))%N = nx by rewrite subnKC ?jrn // EN1.
  have EW : ((rA + (ny - rA)) + (jr j0 + (nz - jr j0)))%N = (ny + nz)%N by rewrite EN2 subnKC // jrm.
  have CA' := cast_canon (esym (subnKC (jrn j0))) C.
  have J2E : J2of (ech_cast (esym (subnKC (jrn j0))) (ke (oA s))) (mxof (jr j0 + (nz - jr j0)) _ J) = mxof _ _ (rawm (jM j0)).
    by rewrite K2; apply: cast_J2 EZ _ _.
  rewrite -J2E in CJ RKJ.
  have RA' : \rank (mxof (rA + (ny - rA)) (rA + (jr j0 + (nA - jr j0))) A) = rA.
    rewrite -[RHS]RA; apply: rank_mxof => //; by rewrite subnKC // jrn.
  apply: (@resolved_ext _ th _ _ _ _ _ _ _ Wx _ _ _ _ th0 _ (ext_rank CA' CJ RA' RKJ) _ CA' CJ); last by rewrite [X in resolved_by _ X]EW EX.
  apply/matrixP => a b; rewrite [LHS]mxE.
  have bl : (b < nx)%N by rewrite -[X in (_ < X)%N]EX.
  case: (split_ordP a) => k ->; rewrite ?col_mxEu ?col_mxEd [RHS]mxE.
    have kl : (k < ny)%N by rewrite -[X in (_ < X)%N]EN2.
    by rewrite [nat_of_ord (lshift _ _)]/= WA.
  by rewrite /J /= EN2.
pose wJ := wJof (ech_cast (esym (subnKC (jrn j))) (ke (oA s))) (fun j => w j).
have OJ : exchange_optimal wJ (ke (jk j)).
  have WE p : wJ p = w (eQ (ke (oA s)) (rshift rA (cast_ord (subnKC (jrn j0)) p))).
    by rewrite /wJ /wJof cast_Q; congr (w (nat_of_ord (eQ _ (rshift _ _)))); apply: val_inj.
  pose w1 (p : 'I_(jr j0 + (nA - jr j0))) := w (eQ (ke (oA s)) (rshift rA (cast_ord (subnKC (jrn j0)) p))).
  have O1 : exchange_optimal w1 (ke (jk j)) by apply: weights_opt => //; exact: RJ.
  by move=> a b nz0; rewrite !WE; exact: O1.
set x := o_ext _ _ _ _ _.
have XO : xexchange_optimal (fun j => w j) x.
  by apply: ext_order_opt; apply: assemble_opt; [exact: cast_opt | exact: OJ].
have V : ew_view sigma x (mxof _ np Wp) = RWQ (rawm (xR x)) (rawm (xS x)) (rawm (xR x *m mxof _ np Wp))
      (List.map (fun i => nat_of_ord (xQ x (lshift _ i))) (enum 'I_(rA + jr j))) (List.map (fun i => nat_of_ord (xQ x (rshift _ i))) (enum 'I_(nA - jr j))).
  by rewrite /ew_view /ext_clean /= !clean_id.
rewrite V [qSbn _]/= [qjb _]/= [qjn _]/= => i k; rewrite !length_enum_map => il kl.
by rewrite -[i]/(nat_of_ord (Ordinal il)) -[k]/(nat_of_ord (Ordinal kl)) !ix_enum rawmE; apply: XO.
Qed.
(** so for threshold 0 *)
Lemma view_optimal : th = 0 -> forall i k, (i < length (qjb q))%N -> (k < length (qjn q))%N ->
  qSbn q i k != 0 -> w (ix (qjn q) k) <= w (ix (qjb q) i).
Proof. by move=> t0; apply: view_resolved; rewrite t0; exact: resolved_by_0. Qed.
End View.
End Obj.
