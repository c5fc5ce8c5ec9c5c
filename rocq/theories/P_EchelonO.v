(** Property theorems C82 and C83: EchelonizerW as an object, and the calculation as a whole
    with it. *)
From Coq Require Import List PeanoNat Permutation Reals Lra Lia.
From mathcomp Require Import all_ssreflect all_algebra.
From Verif Require Import Num Num_facts Index_model Index_spec Index_proofs Num_rf R_rf Echelon_model Echelon_spec LU_model Linear_model Linear_spec Canonical_model Canonical_spec.
From Verif Require Import ResErr_model Residual_model Residual_spec P_Residual EchelonO_model EchelonO_spec EchelonO_proofs EchelonOEx_proofs Basis_spec Pivot_spec Pivot_proofs.
From Verif Require Import Loop_model Loop_spec P_Loop Wrapper_model Wrapper_spec Wrapper_proofs P_Wrapper End_model End_spec Indep_proofs End_proofs P_End.
Set Implicit Arguments.
Unset Strict Implicit.
Unset Printing Implicit Defensive.
Import Order.TTheory GRing.Theory Num.Theory.
Local Open Scope ring_scope.
Local Notation "l ++ l'" := (List.app l l') : seq_scope.

(** ** C82.  Whatever the object was updated with before, an update for W = [A; J] and the
    weights w gives R and (jb, jn) with R*[Wx Wp] = [I S Sp] for the columns in this order; jb has
    as many variables as W has rank; jb and jn come in descending order of weight. *)
Theorem C82_echelonizer : forall (F : realFieldType) (lu : lu_impl F) (srt : sort_impl F) (th sigma : F) (ny nx nz np : nat)
    (A : rawmx F) (h : list (rawmx F * rawvec F)) (Wx Wp : rawmx F) (w : rawvec F) (M : mmat F),
  lu_correct lu -> sort_correct srt -> 0 <= th ->
  (forall i j, (i < ny)%N -> (j < nx)%N -> Wx i j = A i j) -> mWx M = Wx -> mWp M = Wp ->
  let q := (o_ech lu srt th sigma ny nx nz np A h Wx Wp w).2 in
  [/\ echelon_form nx np (ny + nz) M (qR q) (qSbn q) (qSbp q) (qjb q) (qjn q),
      length (qjb q) = \rank (mxof (ny + nz) nx Wx),
      descending w (qjb q) & descending w (qjn q)].
Proof.
move=> F lu srt th sigma ny nx nz np A h Wx Wp w M LC SC th0 WA M1 M2 q.
have [Z|Z] := eqVneq (nz * nx)%N 0%N; first exact: view_empty.
by apply: view_full => //; apply/eqP.
Qed.
Print Assumptions C82_echelonizer.

(** A basis that no exchange improves has the largest possible smallest weight (as [bottleneck]
    in P_Basis.v, for the data the residual function gets). *)
Lemma raw_bottleneck (F : realFieldType) (nx np nw : nat) (M : mmat F) (q : rwq F) (w : rawvec F) (t : F) k (s : 'I_k -> 'I_nx) :
  echelon_form nx np nw M (qR q) (qSbn q) (qSbp q) (qjb q) (qjn q) ->
  (forall i j, (i < length (qjb q))%N -> (j < length (qjn q))%N -> qSbn q i j != 0 -> w (ix (qjn q) j) <= w (ix (qjb q) i)) ->
  spanning (mxof nw nx (mWx M)) s -> (forall a, t <= w (s a)) ->
  forall i, (i < length (qjb q))%N -> t <= w (ix (qjb q) i).
Proof.
move=> [PQ E1 E2 _] XO SP TW i il.
case: (lerP t (w (ix (qjb q) i))) => // lt.
pose r : 'rV[F]_nw := \row_l qR q i l.
have Z : r *m colsub s (mxof nw nx (mWx M)) = 0.
  apply/rowP => a; rewrite [RHS]mxE.
  have -> : (r *m colsub s (mxof nw nx (mWx M))) 0 a = \sum_(l < nw) qR q i l * mWx M l (s a).
    by rewrite mxE; apply: eq_bigr => l _; rewrite !mxE.
  have : In (nat_of_ord (s a)) (qjb q ++ qjn q).
    by apply: (Permutation_in _ PQ); rewrite /indices; apply/in_seq; split; [exact: Nat.le_0_l | apply/ssrnat.ltP].
  move/in_app_iff => [] /(In_nth _ _ 0%N) [j [/ssrnat.ltP jl Ej]]; move: (TW a); rewrite -Ej -/(ix _ j) => ta.
    rewrite E1 //; case: (altP (i =P j)) => // ij.
    by move: ta; rewrite -ij leNgt lt.
  rewrite E2 //; case: (altP (qSbn q i j =P 0)) => // nz.
  by move: (le_lt_trans (le_trans ta (XO i j il jl nz)) lt); rewrite ltxx.
have r0 : r = 0.
  apply/rowP => l; rewrite [RHS]mxE.
  have [c Ec] := SP (delta_mx l 0).
  have : (r *m delta_mx l (0 : 'I_1)) 0 0 = 0 by rewrite Ec mulmxA Z mul0mx mxE.
  by rewrite -colE !mxE.
have := E1 i i il il; rewrite eqxx => /eqP; rewrite big1 ?(eq_sym 0) ?oner_eq0 // => l _.
by have /rowP/(_ l) := r0; rewrite !mxE => ->; rewrite mul0r.
Qed.

(** With the weights of the residual function and threshold 0: if the variables off their
    bounds contain a basis, the basic variables are off their bounds; if those of them with
    |x| >= t do, so are they.  As C79, for the object: the factorizations, the sorts and the
    positions no longer appear, and with any threshold that tells zero coefficients from the others.
    Missing: thresholds that do not (C85_weak_refuted shows what may happen then). *)
Theorem C82_basis_partial : forall (F : realFieldType) (lu : lu_impl F) (srt : sort_impl F) (th sigma : F) (ny nx nz np : nat)
    (A : rawmx F) (h : list (rawmx F * rawvec F)) (Wx Wp : rawmx F) (d : pdata F) (x : rawvec F),
  lu_correct lu -> sort_correct srt -> 0 <= th -> resolved_by th ny nx A -> resolved_by th (ny + nz) nx Wx -> (forall i j, (i < ny)%N -> (j < nx)%N -> Wx i j = A i j) ->
  let basic := qjb (o_ech lu srt th sigma ny nx nz np A h Wx Wp (rf_weight d x)).2 in
  forall (t : F) k (s : 'I_k -> 'I_nx), 0 <= t -> spanning (mxof (ny + nz) nx Wx) s ->
    (forall a, off_bounds x (dxl d) (dxu d) (s a) /\ t <= `|x (s a)|) ->
    forall j, In j basic -> off_bounds x (dxl d) (dxu d) j /\ t <= `|x j|.
Proof.
move=> F lu srt th sigma ny nx nz np A h Wx Wp d x LC SC th0 RA RW WA basic t k s t0 SP TW j /(In_nth _ _ 0%N) [i [/ssrnat.ltP il <-]].
pose z : rawmx F := fun _ _ => 0.
pose M : mmat F := MMat z z z z Wx Wp nil.
have [EF _ _ _] := @C82_echelonizer F lu srt th sigma ny nx nz np A h Wx Wp (rf_weight d x) M LC SC th0 WA (erefl _) (erefl _).
have TW' : forall a, t <= rf_weight d x (s a).
  move=> a; have [[l u] ta] := TW a; rewrite /rf_weight.
  by have [-> ->] : x (s a) != dxl d (s a) /\ x (s a) != dxu d (s a) by split; apply/eqP.
have XO := @view_resolved F lu srt th sigma LC SC th0 ny nx nz np A h Wx Wp (rf_weight d x) WA RA RW.
have := raw_bottleneck EF XO SP TW' il; rewrite -/basic -/(ix basic i) /rf_weight.
case: (altP (x (ix basic i) =P dxl d (ix basic i))) => [_|/eqP l] /=; last case: (altP (x (ix basic i) =P dxu d (ix basic i))) => [_|/eqP u] /=.
- by move/(le_trans t0); rewrite ler0N1.
- by move/(le_trans t0); rewrite ler0N1.
- by [].
Qed.
Print Assumptions C82_basis_partial.

(** x0 + x1 = b at the point (0, 2) with lower bounds 0, after any updates: x1 is the basic variable *)
Example C82_case : exists (lu : lu_impl [realFieldType of rat]) srt, lu_correct lu /\ sort_correct srt /\
  let W : rawmx [realFieldType of rat] := fun _ _ => 1 in
  let d : pdata [realFieldType of rat] := PData (fun _ => 2) (fun _ => 0) (fun _ => 9) in
  let x : rawvec [realFieldType of rat] := fun i => if (i == 0)%N then 0 else 2 in
  (exists s : 'I_1 -> 'I_2, spanning (mxof (1 + 0) 2 W) s /\ forall a, off_bounds x (dxl d) (dxu d) (s a) /\ 2 <= `|x (s a)|) /\
  forall h, qjb (o_ech lu srt 0 0 1 2 0 0 W h W W (rf_weight d x)).2 = 1%N :: nil.
Proof.
have [lu LC] := lu_correct_exists [realFieldType of rat]; have [srt SC] := sort_correct_exists [realFieldType of rat].
exists lu, srt; do 2![split=> //]; move=> W d x.
pose s : 'I_1 -> 'I_2 := fun _ => lift ord0 ord0.
have SP : spanning (mxof (1 + 0) 2 W) s.
  move=> v; exists (const_mx (v 0 0)); apply/colP => i.
  by rewrite mxE big_ord_recl big_ord0 !mxE mul1r addr0 [i]ord1.
have OB : forall a, off_bounds x (dxl d) (dxu d) (s a) /\ 2 <= `|x (s a)| by move=> a; split.
split; first by exists s.
move=> h; set q := qjb _.
have WA i j : (i < 1)%N -> (j < 2)%N -> W i j = W i j by [].
have [[PQ _ _ _] LQ _ _] := @C82_echelonizer _ lu srt 0 0 1 2 0 0 W h W W (rf_weight d x) (MMat W W W W W W nil) LC SC (lexx _) WA (erefl _) (erefl _).
have BQ j : In j q -> off_bounds x (dxl d) (dxu d) j /\ 2 <= `|x j| := @C82_basis_partial _ lu srt 0 0 1 2 0 0 W h W W d x LC SC (lexx _) (@resolved_by_0 _ _ _ _) (@resolved_by_0 _ _ _ _) WA 2 1 s isT SP OB j.
have R1 : \rank (mxof (1 + 0) 2 W) = 1%N.
  apply/eqP; rewrite eqn_leq rank_leq_row lt0n mxrank_eq0; apply/negP => /eqP/matrixP/(_ 0 0).
  by rewrite !mxE.
rewrite R1 -/q in LQ.
have {}PQ j : In j q -> (j < 2)%N.
  move=> jq; have : In j (indices 2) by apply: (Permutation_in _ (Permutation_sym PQ)); apply/in_app_iff; left.
  by case=> [<-|[<-|[]]].
case: q LQ PQ BQ => [//|j [|//]] _ PQ BQ; congr cons.
have := PQ j (or_introl erefl); have := BQ j (or_introl erefl).
by case: j {PQ BQ} => [|[|]] // [[]].
Qed.

(** ** C83.  The calculation as a whole with this object for the echelonizer. *)
Definition the_ech (lu : lu_impl RF) (srt : sort_impl RF) (th sigma : RF) (M : master R xreal) :=
  o_ech lu srt th sigma (ms_ny M) (ms_nx M) (ms_nz M) (ms_np M) (fun i j => mget (ms_Ax M) i j).

Lemma top_rows (M : master R xreal) x p i j : (i < ms_ny M)%N -> (j < ms_nx M)%N -> m_Wx M x p i j = mget (ms_Ax M) i j.
Proof. by move=> il _; rewrite /m_Wx il. Qed.

(** The object meets the contract that C75, C76 and C81 ask of an echelonizer, *)
Theorem C83_contract : forall lu srt th sigma M,
  lu_correct lu -> sort_correct srt -> 0 <= th -> ech_contract M (the_ech lu srt th sigma M).
Proof.
move=> lu srt th sigma M LC SC th0 a x p wt ju.
by have [H _ _ _] := @C82_echelonizer RF lu srt th sigma (ms_ny M) (ms_nx M) (ms_nz M) (ms_np M) (fun i j => mget (ms_Ax M) i j) a (m_Wx M x p) (m_Wp M x p) wt
  (rf_master (m_evals M x p) (m_Wx M x p) (m_Wp M x p) ju) LC SC th0 (@top_rows M x p) (erefl _) (erefl _).
Qed.
Print Assumptions C83_contract.

Lemma full_rank (m n : nat) (W : rawmx RF) :
  (forall f : nat -> R, (forall j, (j < n)%coq_nat -> Wrapper_spec.sum m (fun l => Rmult (f l) (W l j)) = R0) -> forall l, (l < m)%coq_nat -> f l = R0) ->
  \rank (mxof m n W) = m.
Proof.
move=> H; apply/eqP; rewrite -[_ == _]/(row_free _) -kermx_eq0; apply/rowV0P => v /sub_kermxP v0.
pose f (l : nat) : RF := if insub l is Some i then v 0 i else 0.
have fE (i : 'I_m) : f i = v 0 i by rewrite /f valK.
apply/rowP => i; rewrite mxE -fE; apply: H (ssrnat.ltP (ltn_ord i)) => j /ssrnat.ltP jl.
have /rowP/(_ (Ordinal jl)) := v0; rewrite [RHS]mxE => H0; rewrite -[RHS]H0.
rewrite -(sum_big m (fun l => Rmult (f l) (W l j))) mxE.
by apply: eq_bigr => l _; rewrite fE mxE -R_mulE.
Qed.

(** and if the gradients of the equality constraints are independent the number of basic
    variables is the number of constraints. *)
Lemma the_ech_full lu srt th sigma f1 f2 f3 oAx oAp obc P M x xbg xhg p a wt : let d := p_dims P in
  lu_correct lu -> sort_correct srt -> 0 <= th -> update_master f1 f2 f3 oAx oAp obc P = Some M -> block_unspoiled f1 oAx d ->
  length x = d_x d -> length xbg = d_bg d -> length xhg = d_hg d -> independent_equalities P x p ->
  let X := x ++ xbg ++ xhg in
  length (qjb (the_ech lu srt th sigma M a (m_Wx M X p) (m_Wp M X p) wt).2) = (d_be d + d_bg d + d_he d + d_hg d)%coq_nat.
Proof.
move=> d LC SC th0 U B L1 L2 L3 I X.
have [_ -> _ _] := @C82_echelonizer RF lu srt th sigma (ms_ny M) (ms_nx M) (ms_nz M) (ms_np M) (fun i j => mget (ms_Ax M) i j) a (m_Wx M X p) (m_Wp M X p) wt
  (rf_master (m_evals M X p) (m_Wx M X p) (m_Wp M X p) nil) LC SC th0 (@top_rows M X p) (erefl _) (erefl _).
have EM : [/\ ms_nx M = nxbar d, ms_ny M = ny d & ms_nz M = nz d] by rewrite (Meq _ _ _ _ _ _ _ _ U).
have [Enx Eny Enz] := EM.
rewrite full_rank; first by rewrite Eny Enz /ny /nz -plusE; lia.
move=> f H l ll; apply: (master_independent _ _ _ _ _ _ _ _ U (unspoiled_block _ _ _ B) _ _ _ _ L1 L2 L3 I f).
- move=> j jl; rewrite -[RHS](H j); last by rewrite Enx.
  by rewrite Eny Enz; apply: sum_ext => k _; rewrite Wx_spec.
- by rewrite -Eny -Enz.
Qed.

(** Success means that the constraints hold up to [allowed] - the tolerance and the round-off of
    the constraints, times the inverse of the basic columns - at a point where the
    gradients of the user's equality constraints are independent.  Missing as in C75. *)
Theorem C83_success_partial : forall part lu srt th sigma nonfinite newton phi fuel o f1 f2 f3 oAx oAp obc w0 hist m P M st r st'
    tol x xbg xhg p ye yg ze zg,
  let d := p_dims P in
  partition_contract part -> lu_correct lu -> sort_correct srt -> 0 <= th ->
  conforming P -> ordered_bounds P -> block_unspoiled f1 oAx d -> update_master f1 f2 f3 oAx oAp obc P = Some M ->
  state_sized d st -> length (s_p st) = d_p d ->
  (forall w, sized (nxbar d) (d_p d) (ny d + nz d) (snd (newton w))) ->
  (forall ph w xo x, phi = Some ph -> length x = nxbar d -> length (snd (ph w xo x)) = nxbar d) ->
  o_tol o = XF tol ->
  u_solve part (the_ech lu srt th sigma M) nonfinite newton phi None fuel o f1 f2 f3 oAx oAp obc w0 hist m P st = Some (r, st') ->
  r_succeeded r = true ->
  s_x st' = List.map XF x -> s_p st' = List.map XF p -> s_xbg st' = List.map XF xbg -> s_xhg st' = List.map XF xhg ->
  s_ye st' = List.map XF ye -> s_yg st' = List.map XF yg -> s_ze st' = List.map XF ze -> s_zg st' = List.map XF zg ->
  independent_equalities P x p ->
  exists jb V, user_near P tol jb x xbg xhg p ye yg ze zg /\ inverts M (x ++ xbg ++ xhg) p jb V /\
    user_constraints_near P (allowed M (x ++ xbg ++ xhg) p tol jb V) x xbg xhg p.
Proof.
move=> part lu srt th sigma nonfinite newton phi fuel o f1 f2 f3 oAx oAp obc w0 hist m P M st r st' tol x xbg xhg p ye yg ze zg d.
move=> HC LC SC th0 C O B U SS Lp HN HP TOL S OK E1 E2 E3 E4 E5 E6 E7 E8 I.
have HE M' : update_master f1 f2 f3 oAx oAp obc P = Some M' -> ech_contract M' (the_ech lu srt th sigma M).
  by rewrite U => -[<-]; exact: C83_contract.
have [SS' [M' [jb [U' [[a [wt [WT PM]]] [UN [_ UC]]]]]]] := C75_success_partial HC C O B HE SS Lp HN HP TOL S OK E1 E2 E3 E4 E5 E6 E7 E8.
have EMM : M' = M by move: U'; rewrite U => -[].
move: PM UC; rewrite EMM => PM UC.
have [|V [V1 V2]] := UC; last by exists jb, V.
rewrite -(Permutation_length PM); have [LX [_ [_ [_ [_ [LG LH]]]]]] := SS'.
rewrite E1 E3 E4 !List.map_length in LX LG LH.
exact: (the_ech_full _ _ _ LC SC th0 U B).
Qed.
Print Assumptions C83_success_partial.

(** A KKT point with independent gradients of the equality constraints, of a problem with
    constraints, is recognised (C76 without the hypothesis on the basic variables). *)
Theorem C83_kkt_accepted_partial : forall part lu srt th sigma nonfinite newton check fuel o f1 f2 f3 oAx oAp obc w0 hist m P M st
    tol x xbg xhg p ye yg ze zg,
  let d := p_dims P in let xbar := x ++ xbg ++ xhg in
  partition_contract part -> lu_correct lu -> sort_correct srt -> 0 <= th ->
  conforming P -> ordered_bounds P -> block_unspoiled f1 oAx d -> update_master f1 f2 f3 oAx oAp obc P = Some M ->
  (0 < d_be d + d_bg d + d_he d + d_hg d)%coq_nat -> independent_equalities P x p ->
  (forall a wt, weights_at M xbar wt -> let q := (the_ech lu srt th sigma M a (m_Wx M xbar p) (m_Wp M xbar p) wt).2 in
     forall i, (i < length (qjb q))%coq_nat -> Rlt (row_room M xbar p (qR q) i) tol) ->
  state_sized d st -> length p = d_p d -> starts_at st x xbg xhg p ye yg ze zg ->
  user_kkt P x p ye yg ze zg -> slacks P x p xbg xhg ->
  (forall w, snd (newton w) = fin (repeat R0 (nxbar d)) (repeat R0 (d_p d)) (repeat R0 (ny d + nz d))) ->
  o_tol o = XF tol -> Rlt R0 tol -> (1 <= o_maxiters o)%coq_nat ->
  exists r st', u_solve part (the_ech lu srt th sigma M) nonfinite newton None check (S fuel) o f1 f2 f3 oAx oAp obc w0 hist m P st = Some (r, st') /\
    r_succeeded r = true /\ r_iterations r = 1%N /\ starts_at st' x xbg xhg p ye yg ze zg.
Proof.
move=> part lu srt th sigma nonfinite newton check fuel o f1 f2 f3 oAx oAp obc w0 hist m P M st tol x xbg xhg p ye yg ze zg d xbar.
move=> HC LC SC th0 C O B U N0 I RO SS Lp ST K SL HN TOL t0 MX.
have HE : ech_contract M (the_ech lu srt th sigma M) by exact: C83_contract.
have [E1 [E2 [E3 _]]] := ST; have [Lx [_ [_ [_ [_ [Lg Lh]]]]]] := SS.
rewrite E1 E2 E3 !List.map_length in Lx Lg Lh.
apply: (C76_kkt_accepted_partial nonfinite check fuel w0 hist m HC C O B U HE _ SS Lp ST K SL HN TOL t0 MX).
move=> a wt WT q; split; last exact: RO.
have LQ : length (qjb q) = (d_be d + d_bg d + d_he d + d_hg d)%coq_nat := the_ech_full sigma a wt LC SC th0 U B Lx Lg Lh I.
move=> E0; have L0 : (0 < length (qjb q))%coq_nat by rewrite LQ.
by move: L0; rewrite E0 /=; lia.
Qed.
Print Assumptions C83_kkt_accepted_partial.

(** min x subject to x = 1, -5 <= x, from its solution x = 1, y = -1, for any correct
    factorization and sort (there are such) *)
Definition P83 : problem R xreal := Problem (Dims 1 0 1 0 0 0 0) None (Some fx1) (Some cfn0) (Some cfn0) (Some cfn0)
  (fun _ _ => R1) mzeros mzeros mzeros (R1 :: nil) nil (XF (IZR (-5)) :: nil) (XPInf :: nil) nil nil nil mzeros mzeros.
Definition st83 : ustate xreal := UState (p_dims P83) (XF R1 :: nil) nil (XF (IZR (-1)) :: nil) nil nil nil nil nil nil nil nil nil nil nil nil.
Definition w83 : world (list (rawmx RF * rawvec RF)) := World nil q57 None XNaN.
Example C83_case : exists lu srt M r st',
  [/\ lu_correct lu /\ sort_correct srt, conforming P83 /\ ordered_bounds P83, update_master mem7 mem7 mem7 old7 old7 old7 P83 = Some M,
      independent_equalities P83 (R1 :: nil) nil &
      u_solve libstdcxx_partition (the_ech lu srt code_threshold 0 M) (fun a _ => (a, XNaN)) (fun w => (w, fin (R0 :: nil) nil (R0 :: nil))) None None 1
        (Options 5 (XF R1) false) mem7 mem7 mem7 old7 old7 old7 w83 nil m0 P83 st83 = Some (r, st') /\
      r_succeeded r = true /\ r_iterations r = 1%N /\ starts_at st' (R1 :: nil) nil nil nil (IZR (-1) :: nil) nil nil nil].
Proof.
have th0 : (0 : RF) <= code_threshold by apply: ltW; apply/R_ltP; case: code_threshold_range.
have LE a b : Rle a b -> rleb a b = true by move=> H; rewrite /rleb; case: Rle_dec.
have [lu LC] := lu_correct_exists RF; have [srt SC] := sort_correct_exists RF.
have OB : ordered_bounds P83 by split=> //; split; repeat constructor.
have BU : block_unspoiled mem7 old7 (p_dims P83) by right; left.
have CF : conforming P83 by repeat split.
case U: (update_master mem7 mem7 mem7 old7 old7 old7 P83) => [M|//].
have EM : [/\ ms_nx M = 1%N, ms_np M = 0%N, ms_ny M = 1%N & ms_nz M = 0%N] by rewrite (Meq _ _ _ _ _ _ _ _ U).
have [E1 E2 E3 E4] := EM.
have A0 : mget (ms_Ax M) 0 0 = R1 by rewrite (Meq _ _ _ _ _ _ _ _ U).
have IE : independent_equalities P83 (R1 :: nil) nil.
  move=> a b /(_ 0%N) /=; rewrite /Wrapper_spec.sum /= => H; split=> i /=; last by lia.
  by case: i => [_|i]; [have := H ltac:(lia); lra | lia].
exists lu, srt, M.
have HH := @C83_kkt_accepted_partial libstdcxx_partition lu srt code_threshold 0 (fun a _ => (a, XNaN)) (fun w => (w, fin (R0 :: nil) nil (R0 :: nil))) None 0
        (Options 5 (XF R1) false) mem7 mem7 mem7 old7 old7 old7 w83 nil m0 P83 M st83 R1 (R1 :: nil) nil nil nil (IZR (-1) :: nil) nil nil nil
        libstdcxx_contract LC SC th0 CF OB BU U.
have [||||||||||||r [st' H]] := HH; last by exists r, st'; split.
- by apply/ssrnat.ltP.
- exact: IE.
- move=> a wt _ q.
  have LQ : length (qjb q) = 1%N by apply: (the_ech_full _ _ _ LC SC th0 U BU _ _ _ IE).
  case=> [_|i]; last by rewrite LQ; lia.
  have HQ := @C83_contract lu srt code_threshold 0 M LC SC th0 a (R1 :: nil) nil wt nil.
  rewrite -[X in (qR X)]/q E1 E2 E3 E4 in HQ; have [PQ EQ _ _] := HQ.
  have J0 : ix (qjb q) 0 = 0%N.
    have : In (ix (qjb q) 0) (indices 1).
      apply: (Permutation_in _ (Permutation_sym PQ)); apply/in_app_iff; left.
      by apply: nth_In; rewrite LQ; lia.
    by case.
  have := EQ 0%N 0%N; rewrite LQ J0 big_ord_recl big_ord0 /= /m_Wx E3 /= A0 mulr1 addr0 => /(_ isT isT) R00.
  have CM : cmag M ((R1 :: nil) ++ nil ++ nil) nil 0%N = IZR 2.
    by rewrite /cmag /ctarget E1 E2 E3 (Meq _ _ _ _ _ _ _ _ U) /= /cWx /= /at_ /= Rabs_R1; lra.
  have SU : Wrapper_spec.sum (ms_ny M + ms_nz M)%coq_nat (fun l => Rmult (Rabs (qR q 0%N l)) (cmag M ((R1 :: nil) ++ nil ++ nil) nil l)) = IZR 2.
    by rewrite E3 E4; cbn [Wrapper_spec.sum Nat.add]; rewrite CM R00 Rabs_R1; lra.
  rewrite /row_room [Wrapper_spec.sum _ _]SU.
  have L : Rlt (pow 2 1) (pow 2 52) by apply: Rlt_pow; [lra | lia].
  rewrite pow_1 in L; move: (pow 2 52) L => t L.
  by apply: (Rmult_lt_reg_l t); [lra | rewrite -Rmult_assoc Rinv_r; lra].
- by [].
- by [].
- by repeat split.
- split; first split; last split.
  + by case=> [|i] /= Hi; [rewrite /Wrapper_spec.lin /at_ /=; lra | lia].
  + do 4![split; first by move=> i /=; lia].
    split; last by move=> i /=; lia.
    by case=> [|i] /= Hi; [split=> //; apply: LE; rewrite /at_ /=; lra | lia].
  + by case=> [|i] /= Hi; [left; rewrite /at_ /=; lra | lia].
  + by split=> i /=; lia.
- by split=> i /=; lia.
- by [].
- by [].
- by lra.
- by rewrite /=; lia.
Qed.
