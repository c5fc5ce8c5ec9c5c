(** Property theorem C86: the sensitivity derivatives returned by Solver::solve. *)
From Coq Require Import List PeanoNat Permutation Reals Lra Lia.
From Coquelicot Require Import Coquelicot.
From mathcomp Require Import all_ssreflect all_algebra.
From Verif Require Import Num Num_facts Index_model Index_spec Index_proofs Num_rf R_rf Echelon_model Echelon_spec LU_model LU_spec Linear_model Linear_spec Canonical_model Canonical_spec.
From Verif Require Import ResErr_model Residual_model Residual_spec Residual_proofs P_Residual EchelonO_model EchelonO_spec EchelonO_proofs EchelonOEx_proofs Sens_model Sens_spec Sens_proofs P_Sens.
From Verif Require Import Newton_model Newton_spec Newton_proofs P_Newton Loop_model Loop_spec P_Loop Wrapper_model Wrapper_spec Wrapper_proofs P_Wrapper Near_proofs Stay_proofs End_model End_spec Indep_proofs End_proofs P_End.
From Verif Require Import P_EchelonO Pivot_spec Status_spec Status_proofs P_Status P_Licq SensW_model SensW_spec SensW_proofs.
Set Implicit Arguments.
Unset Strict Implicit.
Unset Printing Implicit Defensive.
Import Order.TTheory GRing.Theory Num.Theory.
Local Open Scope ring_scope.
Local Notation "l ++ l'" := (List.app l l') : seq_scope.

(** What a finished calculation went through last *)
Lemma open_solve part E ech nonfinite newton phi check fuel o f1 f2 f3 oAx oAp obc (w0 : world E) hist m P M st r st' x xbg xhg p ye yg ze zg : let d := p_dims P in
  conforming P -> ordered_bounds P -> state_sized d st -> length (s_p st) = d_p d ->
  (forall w, sized (nxbar d) (d_p d) (ny d + nz d) (snd (newton w))) ->
  (forall ph w xo x, phi = Some ph -> length x = nxbar d -> length (snd (ph w xo x)) = nxbar d) ->
  update_master f1 f2 f3 oAx oAp obc P = Some M ->
  u_solve part ech nonfinite newton phi check fuel o f1 f2 f3 oAx oAp obc w0 hist m P st = Some (r, st') ->
  starts_at st' x xbg xhg p ye yg ze zg ->
  state_sized d st' /\ length p = d_p d /\ exists s,
    let m' := to_master m st in
    m_solve part M ech nonfinite newton phi check fuel o w0 hist (UVec (t_x m') (t_p m') (t_w m')) = Some (r, s) /\
    s_u s = UVec (List.map XF (x ++ xbg ++ xhg)) (List.map XF p) (List.map XF (ye ++ yg ++ ze ++ zg)) /\
    st' = of_master part d (finalize m' (s_w s) (s_u s)) st.
Proof.
move=> d C O SS Lp HN HP U S ST.
have [SS' LP'] := returned_sized C O SS Lp HN HP S; split=> //.
move: ST => -[E1 [E3 [E4 [E2 [E5 [E6 [E7 E8]]]]]]].
split; first by rewrite -LP' E2 List.map_length.
move: S; rewrite /u_solve U; case S: m_solve => [[r0 s]|//] [ER ES]; exists s; split; first by rewrite -ER.
split; last by rewrite -ES.
have G := good_bounds_of C O U.
have EM : [/\ ms_nx M = nxbar d, ms_np M = d_p d, ms_ny M = ny d & ms_nz M = nz d] by rewrite (Meq _ _ _ _ _ _ _ _ U).
have [Enx Enp Eny Enz] := EM.
have SZ : sized (nxbar d) (d_p d) (ny d + nz d) (s_u s).
  have [SX [SY1 [SY2 [SY3 [SY4 [SY5 SY6]]]]]] := SS.
  rewrite Enx Enp in G.
  apply: (final_sized G _ HN HP S).
  by rewrite /sized /= !List.app_length SX SY1 SY2 SY3 SY4 SY5 SY6 /nxbar /ny /nz -!plusE; repeat split; try lia.
have := SZ; rewrite /sized; case US: (s_u s) => [sx sp sw] [L1 [L2 L3]]; rewrite /= in L1 L2 L3.
pose m' := finalize (to_master m st) (s_w s) (UVec sx sp sw).
have T1 : t_x m' = sx by rewrite /m' /finalize; case: w_res.
have T2 : t_p m' = sp by rewrite /m' /finalize; case: w_res.
have T3 : t_w m' = sw by rewrite /m' /finalize; case: w_res.
have [||CX [CW [CP [CS CV]]]] := C59_complete _ part d m' st.
- by rewrite T1 L1 /nxbar.
- by rewrite T3 L3 /ny /nz ?plusE; lia.
rewrite -/d -/m' in CX CW CP.
have EQ : of_master part d m' st = st' by rewrite -ES US.
rewrite EQ E1 E3 E4 -!List.map_app T1 in CX; rewrite EQ E5 E6 E7 E8 -!List.map_app T3 in CW; rewrite EQ E2 T2 in CP.
by rewrite CX CW CP.
Qed.

(** ** Columns and rows of the result *)
Lemma all_columns_some (f : nat -> option (Sens_model.sens RF)) (Q : nat -> Sens_model.sens RF -> Prop) s0 ks :
  (forall k, In k ks -> exists2 s, f k = Some s & Q k s) ->
  exists2 cols, all_columns f ks = Some cols & length cols = length ks /\ forall i, (i < length ks)%coq_nat -> Q (List.nth i ks 0%N) (List.nth i cols s0).
Proof.
elim: ks => [|k ks IH] H; first by exists nil => //; split=> // i /=; lia.
have [s Es Qs] := H k (or_introl erefl).
have [|cols Ec [Lc Hc]] := IH; first by move=> j jl; apply: H; right.
exists (s :: cols); first by rewrite /= Es Ec.
by split; [rewrite /= Lc | case=> [|i] /= Hi //; apply: Hc; lia].
Qed.
Lemma nth_map_seq T (f : nat -> T) n i dflt : (i < n)%coq_nat -> List.nth i (List.map f (List.seq 0 n)) dflt = f i.
Proof. by move=> il; rewrite (List.nth_indep _ _ (f 0%N)) ?List.map_length ?seq_length // List.map_nth seq_nth. Qed.
Lemma ent_rows n get cols i k s0 : (i < n)%coq_nat -> (k < length cols)%coq_nat -> ent (rows_of n get cols) i k = get (List.nth k cols s0) i.
Proof.
move=> il kl; rewrite /ent /rows_of nth_map_seq //.
by rewrite (List.nth_indep _ _ (get s0 i)) ?List.map_length // (List.map_nth (fun s => get s i)).
Qed.
Lemma nth_head T n (l : list T) i dflt : (i < n)%coq_nat -> List.nth i (head n l) dflt = List.nth i l dflt.
Proof. by rewrite /head; elim: n l i => [|n IH] [|a l] [|i] //= H; try lia; apply: IH; lia. Qed.
Lemma nth_skip T n (l : list T) i dflt : List.nth i (skipn n l) dflt = List.nth (n + i)%coq_nat l dflt.
Proof. by elim: n l => [|n IH] [|a l] //=; case: (i). Qed.
Lemma nth_tail T n m (l : list T) i dflt : length l = (m + n)%coq_nat -> List.nth i (tail n l) dflt = List.nth (m + i)%coq_nat l dflt.
Proof. by move=> L; rewrite /tail nth_skip L; congr List.nth; lia. Qed.
Lemma nth_segment T a n (l : list T) i dflt : (i < n)%coq_nat -> List.nth i (segment a n l) dflt = List.nth (a + i)%coq_nat l dflt.
Proof. by move=> il; rewrite /segment -/(head n _) nth_head // nth_skip. Qed.

Lemma rows_length n get cols : length (rows_of n get cols) = n.
Proof. by rewrite /rows_of List.map_length seq_length. Qed.

(** ** C86, the equations *)

(** No equation of the reduced linear system for parameter k is discarded for lack of magnitude
    (C33); this is always so with eps = 0 *)
Definition sens_resolved (lus : forall n, 'M[RF]_n -> lufac RF n) (eps : RF) (M : master R xreal) (x p : list R) (rr : residual RF) (k : nat) (r0 : rawvec RF) : Prop :=
  let np := ms_np M in let J := canon_cmat np (rM rr) (rc rr) in
  resolved eps (lus _ (nM (null_decompose J)))
    (null_rhs (null_decompose J) (canon_rhs np (ms_ny M + ms_nz M) (rc rr) (sens_rhs (ms_ny M) (status_js (rst rr)) (status_ju (rst rr)) (m_cderivs M x p k) r0))).
Lemma resolved_exact lus M x p rr k r0 : sens_resolved lus 0 M x p rr k r0.
Proof. by move=> i; rewrite mul0r normr_gt0. Qed.

Section Column.
Variables (part : partition_impl) (lu : lu_impl RF) (srt : sort_impl RF) (th sigma : RF).
Variables (f1 f2 f3 : nat -> R) (oAx oAp obc : mat R) (P : problem R xreal) (M : master R xreal).
Let d := p_dims P.
Hypotheses (HC : partition_contract part) (LC : lu_correct lu) (SC : sort_correct srt) (th0 : 0 <= th).
Hypotheses (C : conforming P) (U : update_master f1 f2 f3 oAx oAp obc P = Some M) (B : block_unspoiled f1 oAx d).
Variable a : upoint.
Hypotheses (Lx : length (ptx a) = d_x d) (Lbg : length (ptbg a) = d_bg d) (Lhg : length (pthg a) = d_hg d).
Hypotheses (Lye : length (ptye a) = d_be d) (Lyg : length (ptyg a) = d_bg d) (Lze : length (ptze a) = d_he d).
Let X := ptx a ++ ptbg a ++ pthg a.
Let W := ptye a ++ ptyg a ++ ptze a ++ ptzg a.
Hypothesis LI : licq P (ptx a) (ptbg a) (pthg a) (ptp a).
Hypothesis WPV : well_pivoted th M X (ptp a).
Hypothesis N0 : (0 < d_be d + d_bg d + d_he d + d_hg d)%coq_nat.
Variables (ea : list (rawmx RF * rawvec RF)) (wt : rawvec RF).
Hypothesis WT : weights_at M X wt.
Let q := (the_ech lu srt th sigma M ea (m_Wx M X (ptp a)) (m_Wp M X (ptp a)) wt).2.
Variable rr : residual RF.
Hypothesis RU : rf_update part (ms_nx M) (ms_np M) (ms_ny M) (ms_nz M) (m_data M X) (m_evals M X (ptp a)) (m_Wx M X (ptp a)) (m_Wp M X (ptp a)) q
  (MVec (vec X) (vec (ptp a)) (vec W)) = Some rr.
Let fixed j := In j (status_ju (rst rr)).

Let EM : [/\ ms_nx M = nxbar d, ms_np M = d_p d, ms_ny M = ny d & ms_nz M = nz d].
Proof. by rewrite (Meq _ _ _ _ _ _ _ _ U). Qed.
Let HQ : echelon_of (ms_nx M) (ms_np M) (ms_ny M + ms_nz M) (m_evals M X (ptp a)) (m_Wx M X (ptp a)) (m_Wp M X (ptp a)) q.
Proof. exact: (@C83_contract lu srt th sigma M LC SC th0 ea X (ptp a) wt). Qed.
Let LQ : length (qjb q) = (ms_ny M + ms_nz M)%N.
Proof.
have [_ _ -> ->] := EM.
rewrite (the_ech_full _ _ _ LC SC th0 U B Lx Lbg Lhg (licq_independent _ _ _ _ _ LI)) -/d /ny /nz -!plusE; lia.
Qed.
Let QN : qjb q <> nil.
Proof. by move=> Q0; move: LQ N0; rewrite Q0 /=; have [_ _ -> ->] := EM; rewrite /ny /nz -!plusE; lia. Qed.
Let OFF j : In j (qjb q) -> ~ at_bound (at_ X j) (bd (ms_xlower M) j) (bd (ms_xupper M) j).
Proof. exact: (licq_basic LC SC th0 C U B Lx Lbg Lhg LI WPV WT). Qed.
Let LAG j : lagrangian (ms_ny M) (ms_nz M) (m_evals M X (ptp a)) (m_Wx M X (ptp a)) (MVec (vec X : rawvec RF) (vec (ptp a) : rawvec RF) (vec W : rawvec RF)) j = cgrad M X (ptp a) W j.
Proof. by rewrite lagrangian_spec. Qed.

(** the variables that stay fixed *)
Lemma fixed_master j : (j < nxbar d)%coq_nat -> fixed j <->
  (bd (ms_xlower M) j = XF (at_ X j) /\ Rlt 0 (cgrad M X (ptp a) W j)) \/ (bd (ms_xupper M) j = XF (at_ X j) /\ Rlt (cgrad M X (ptp a) W j) 0).
Proof.
move=> jl; rewrite /fixed (status_ju_spec HC HQ RU QN) LAG /=.
have bE b : vec X j = bnum b (vec X j) <-> b = XF (at_ X j) by split=> [/bnum_bound //|->].
split.
- move=> [_ _ [[/bE H1 H2]|[/bE H1 H2]]]; [left | right]; split=> //; exact/R_ltP.
- have [Enx _ _ _] := EM.
  move=> H; split; first by rewrite Enx; apply/ssrnat.ltP.
    by move=> /OFF; apply; case: H => -[H _]; [left | right].
  by case: H => -[H1 H2]; [left | right]; split; try (exact/bE); exact/R_ltP.
Qed.

Lemma fixed_x j : (j < d_x d)%coq_nat -> fixed j <-> held P a j.
Proof.
move=> jl; rewrite fixed_master; last by rewrite /nxbar; lia.
have [-> ->] := bd_x _ _ _ _ _ _ _ _ C U j jl; rewrite (xbar_x P _ _ _ Lx) //.
have -> : cgrad M X (ptp a) W j = user_stability P (ptx a) (ptp a) (ptye a) (ptyg a) (ptze a) (ptzg a) j; last by [].
have [_ _ E3 E4] := EM; rewrite /cgrad E3 E4.
exact: (lag_x _ _ _ _ _ _ _ _ U (unspoiled_block _ _ _ B) _ _ _ _ _ _ _ _ Lx Lbg Lhg Lye Lyg Lze j jl).
Qed.
Lemma fixed_bg i : (i < d_bg d)%coq_nat -> fixed (d_x d + i)%coq_nat <-> bg_held a i.
Proof.
move=> il; rewrite fixed_master; last by rewrite /nxbar; lia.
have [|-> ->] := bd_slack _ _ _ _ _ _ _ _ C U i; first by move: il; rewrite -/d; lia.
rewrite (xbar_bg P _ _ _ Lx Lbg) //.
have -> : cgrad M X (ptp a) W (d_x d + i)%coq_nat = at_ (ptyg a) i.
  have [_ _ E3 E4] := EM; rewrite /cgrad E3 E4.
  exact: (lag_bg _ _ _ _ _ _ _ _ U (unspoiled_block _ _ _ B) _ _ _ _ _ _ _ _ Lx Lbg Lhg Lye Lyg Lze i il).
by rewrite /bg_held; split=> [[[]//|[[<-] H]]|[-> H]]; [split | right].
Qed.
Lemma fixed_hg i : (i < d_hg d)%coq_nat -> fixed (d_x d + d_bg d + i)%coq_nat <-> hg_held a i.
Proof.
move=> il; rewrite fixed_master; last by move: il; rewrite /nxbar -?plusE; lia.
have [|] := bd_slack _ _ _ _ _ _ _ _ C U (d_bg d + i)%coq_nat; first by move: il; rewrite -/d; lia.
rewrite -/d Nat.add_assoc => -> ->; rewrite (xbar_hg P _ _ _ Lx Lbg) //.
have -> : cgrad M X (ptp a) W (d_x d + d_bg d + i)%coq_nat = at_ (ptzg a) i.
  have [_ _ E3 E4] := EM; rewrite /cgrad E3 E4.
  exact: (lag_hg _ _ _ _ _ _ _ _ U (unspoiled_block _ _ _ B) _ _ _ _ _ _ _ _ Lx Lbg Lhg Lye Lyg Lze i il).
by rewrite /hg_held; split=> [[[]//|[[<-] H]]|[-> H]]; [split | right].
Qed.

(** the two forms of the linearised conditions *)
Lemma newton_tangent (ra rb rc : rawvec RF) v :
  newton_eqs (ms_nx M) (ms_np M) (ms_ny M + ms_nz M) (m_evals M X (ptp a)) (m_Wx M X (ptp a)) (m_Wp M X (ptp a)) fixed ra rb rc v ->
  master_tangent P M a fixed ra rb rc (mx v) (mp v) (mw v).
Proof.
have [E1 E2 E3 E4] := EM; rewrite E1 E2 E3 E4 => -[H1 H2 H3 H4].
split; first by move=> j /ssrnat.ltP jl; exact: H1.
split; last split.
- move=> j /ssrnat.ltP jl jf; rewrite -(H2 j jl jf) /=.
  rewrite (sum_big (nxbar d) (fun j0 => Rmult (o_fxx (m_f M X (ptp a)) j j0) (mx v j0))).
  rewrite (sum_big (d_p d) (fun j0 => Rmult (o_fxp (m_f M X (ptp a)) j j0) (mp v j0))).
  rewrite (sum_big (ny d + nz d) (fun l => Rmult (m_Wx M X (ptp a) l j) (mw v l))).
  congr (Rplus (Rplus _ _) _); apply: sum_ext => l _; by rewrite Wx_spec Rmult_comm.
- move=> l /ssrnat.ltP ll; rewrite -(H3 l ll) /=.
  rewrite (sum_big (nxbar d) (fun j0 => Rmult (c_ddx (m_v M X (ptp a)) l j0) (mx v j0))).
  by rewrite (sum_big (d_p d) (fun j0 => Rmult (c_ddp (m_v M X (ptp a)) l j0) (mp v j0))).
- move=> l /ssrnat.ltP ll; rewrite -(H4 l ll) /=.
  rewrite (sum_big (nxbar d) (fun j0 => Rmult (m_Wx M X (ptp a) l j0) (mx v j0))).
  rewrite (sum_big (d_p d) (fun j0 => Rmult (m_Wp M X (ptp a) l j0) (mp v j0))).
  by congr (Rplus _ _); apply: sum_ext => j _; rewrite ?Wx_spec ?Wp_spec.
Qed.

Hypothesis UT : unique_tangent P a.
Lemma master_regular : regular (ms_nx M) (ms_np M) (ms_ny M + ms_nz M) (m_evals M X (ptp a)) (m_Wx M X (ptp a)) (m_Wp M X (ptp a)) fixed.
Proof.
move=> v NE; have T := newton_tangent NE.
have T' := tangent_user _ _ _ _ _ _ _ _ U (unspoiled_block _ _ _ B) _ Lx Lbg Lhg fixed _ _ _ _ _ _ fixed_x fixed_bg fixed_hg (fun _ _ => erefl) T.
have [D1 [D2 D3]] := dir_zero _ _ Lx Lbg Lhg _ _ _ (UT T').
have [E1 E2 E3 E4] := EM.
split; rewrite ?E1 ?E2 ?E3 ?E4 => i /ssrnat.ltP il; [exact: D1 | exact: D2 | exact: D3].
Qed.

Variables (lus : forall n, 'M[RF]_n -> lufac RF n) (eps : RF) (r0 : nat -> rawvec RF) (s0 : nat -> Sens_model.sens RF).
Hypothesis LUS : forall n (A : 'M[RF]_n), full_piv A (lus A).
Hypothesis e0 : 0 <= eps.

Lemma column_ok k : (k < d_c d)%coq_nat -> sens_resolved lus eps M X (ptp a) rr k (r0 k) ->
  exists2 t, m_column M lus eps r0 s0 rr X (ptp a) k = Some t & c_tangent P a k (dir_of P (sx t) (sp t) (sw t)).
Proof.
move=> kl RS.
have N := kkt_nonsingular HC HQ RU LQ master_regular.
have SV : solvable (ms_ny M) (ms_nz M) eps (m_cderivs M X (ptp a) k) (r0 k) (lus (nM (null_decompose (canon_cmat (ms_np M) (rM rr) (rc rr))))).
  by split=> //; split.
have [t [v [E _ Hv [Ep Ew] Ex]]] := sens_solve_eqs (s0 k) HC HQ RU SV.
exists t => //.
have NM i : ~ In i (status_jms (rst rr)).
  move=> /(status_jms_spec HC HQ RU QN) [/OFF OB H]; apply: OB.
  by case: H => -[/bnum_bound H _]; [left | right].
have X' i : sx t i = mx v i by rewrite Ex; case: ifP => // /contains_In /NM.
have Cu i : In i (kju (rc rr)) -> mx (sens_rhs (ms_ny M) (status_js (rst rr)) (status_ju (rst rr)) (m_cderivs M X (ptp a) k) (r0 k)) i = 0.
  by move=> /(ju_kju HC HQ RU) /contains_In /= ->.
have /newton_tangent T := eqs_newton HC HQ RU LQ Cu Hv.
have SJ i : (i < nxbar d)%coq_nat -> ~ fixed i ->
    mx (sens_rhs (ms_ny M) (status_js (rst rr)) (status_ju (rst rr)) (m_cderivs M X (ptp a) k) (r0 k)) i = Ropp (o_fxc (m_f M X (ptp a)) i k).
  move=> il nf /=; case: ifP => [/contains_In //|_].
  have /(status_ltn HC HQ RU) [/contains_In -> //|//] : (i < ms_nx M)%N by have [-> _ _ _] := EM; apply/ssrnat.ltP.
have Z j : (d_x d <= j)%coq_nat /\ (j < nxbar d)%coq_nat -> mx (sens_rhs (ms_ny M) (status_js (rst rr)) (status_ju (rst rr)) (m_cderivs M X (ptp a) k) (r0 k)) j = 0.
  move=> [j1 j2]; case: (List.in_dec Nat.eq_dec j (status_ju (rst rr))) => [/contains_In /= -> //|nf].
  rewrite (SJ j j2 nf) [m_f M X (ptp a)]/(ocall _ _ _ _ _) (row_fxc _ _ _ _ _ _ _ _ U _ Lx).
  by rewrite (proj2 (Nat.ltb_ge _ _) j1) Ropp_0.
have T' := tangent_user _ _ _ _ _ _ _ _ U (unspoiled_block _ _ _ B) _ Lx Lbg Lhg fixed _ _ _ _ _ _ fixed_x fixed_bg fixed_hg Z T.
have [E1 E2 E3 E4] := EM.
have SD : same_dir d (dir_of P (mx v) (mp v) (mw v)) (dir_of P (sx t) (sp t) (sw t)).
  rewrite /dir_of Ep Ew /same_dir /=.
  by do 7?[split=> [i il|]]; rewrite ?X' // => i il; rewrite ?X'.
have {}T' := tangent_ext _ _ _ _ _ _ _ _ _ _ SD T'.
apply: tangent_rhs T'.
- move=> j jl nh; rewrite (SJ j) ?[m_f M X (ptp a)]/(ocall _ _ _ _ _) ?(row_fxc _ _ _ _ _ _ _ _ U _ Lx) ?(proj2 (Nat.ltb_lt _ _) jl) //.
    by move: jl; rewrite /nxbar -?plusE -/d; lia.
  by move/(fixed_x jl).
- move=> l ll /=; congr Ropp; exact: (proj2 (row_vpc _ _ _ _ _ _ _ _ U _ Lx Lbg Lhg l k ll)).
- move=> i il /=; have l1 : (i < ny d)%coq_nat by move: il; rewrite /ny -?plusE -/d; lia.
  rewrite E3 (introT ssrnat.ltP l1) (row_bc _ _ _ _ _ _ _ _ U i k l1 kl).
  by rewrite (proj2 (Nat.ltb_lt _ _) il).
- move=> i il /=; have l1 : (d_be d + i < ny d)%coq_nat by move: il; rewrite /ny -?plusE -/d; lia.
  rewrite E3 (introT ssrnat.ltP l1) (row_bc _ _ _ _ _ _ _ _ U _ k l1 kl).
  rewrite (proj2 (Nat.ltb_ge _ _)); last by rewrite -?plusE -/d; lia.
  by congr (p_bgc P); rewrite -?plusE -?minusE -/d; lia.
- move=> i il /=; have l1 : (i < nz d)%coq_nat by move: il; rewrite /nz -?plusE -/d; lia.
  rewrite E3 ltnNge leq_addr /=; congr Ropp.
  have -> : (ny d + i - ny d)%N = i by rewrite addKn.
  by rewrite [m_h M X (ptp a)]/(ccall _ _ _ _ _) (row_hc _ _ _ _ _ _ _ _ U _ Lx Lbg Lhg i k l1) (proj2 (Nat.ltb_lt _ _) il).
- move=> i il /=; have l1 : (d_he d + i < nz d)%coq_nat by move: il; rewrite /nz -?plusE -/d; lia.
  rewrite E3 ltnNge leq_addr /=; congr Ropp.
  have -> : (ny d + (d_he d + i) - ny d)%N = (d_he d + i)%N by rewrite addKn.
  rewrite [m_h M X (ptp a)]/(ccall _ _ _ _ _) (row_hc _ _ _ _ _ _ _ _ U _ Lx Lbg Lhg _ k l1).
  rewrite (proj2 (Nat.ltb_ge _ _)); last by rewrite -?plusE -/d; lia.
  by congr (c_ddc _ _ k); rewrite -?plusE -?minusE -/d; lia.
Qed.
End Column.

Ltac nlia := rewrite -?plusE -?minusE; repeat match goal with H : context [addn] |- _ => rewrite -?plusE in H | H : context [subn] |- _ => rewrite -?minusE in H end; lia.
Lemma shape_rows n get cols : shape n (length cols) (rows_of n get cols).
Proof.
by split; [exact: rows_length | apply/Forall_forall => r /List.in_map_iff [i [<- _]]; rewrite List.map_length].
Qed.
Lemma shape_head r n k A : shape r n A -> (k <= r)%coq_nat -> shape k n (head k A).
Proof.
move=> [L /Forall_forall F] kl; split; first by rewrite /head firstn_length L; nlia.
by apply/Forall_forall => x Hx; apply: F; rewrite -(firstn_skipn k A); apply: in_or_app; left.
Qed.
Lemma shape_skip r n k A : shape r n A -> shape (r - k)%coq_nat n (skipn k A).
Proof.
move=> [L /Forall_forall F]; split; first by rewrite skipn_length L.
by apply/Forall_forall => x Hx; apply: F; rewrite -(firstn_skipn k A); apply: in_or_app; right.
Qed.
Lemma shape_tail r n k A : shape r n A -> (k <= r)%coq_nat -> shape k n (tail k A).
Proof.
move=> SH kl; rewrite /tail; have [-> _] := SH; have := shape_skip (r - k)%coq_nat SH.
by have -> : (r - (r - k))%coq_nat = k by nlia.
Qed.
Lemma shape_segment r n b k A : shape r n A -> (b + k <= r)%coq_nat -> shape k n (segment b k A).
Proof. by move=> S kl; apply: shape_head (shape_skip b S) _; nlia. Qed.
Lemma of_msens_shaped d nc g : shape (nxbar d) nc (g_xc g) -> shape (d_p d) nc (g_pc g) -> shape (ny d + nz d)%coq_nat nc (g_wc g) -> shape (nxbar d) nc (g_sc g) ->
  sens_shaped d nc (of_msens d g).
Proof.
rewrite /nxbar /ny /nz => X1 X2 X3 X4; rewrite /sens_shaped /=.
have Y : shape (d_be d + d_bg d)%coq_nat nc (head (ny d) (g_wc g)) by apply: shape_head X3 _; nlia.
have Z : shape (d_he d + d_hg d)%coq_nat nc (tail (nz d) (g_wc g)) by apply: shape_tail X3 _; nlia.
split; [|split; [exact: X2|split; [|split; [|split; [|split; [|split; [|split]]]]]]].
- by apply: shape_head X1 _; nlia.
- by apply: shape_segment X1 _; nlia.
- by apply: shape_tail X1 _; nlia.
- by apply: shape_head Y _; nlia.
- by apply: shape_tail Y _; nlia.
- by apply: shape_head Z _; nlia.
- by apply: shape_tail Z _; nlia.
- by apply: shape_head X4 _; nlia.
Qed.

(** The entries of column k *)
Lemma sens_dir_of (P : problem R xreal) (M : master R xreal) cols k s0 : let d := p_dims P in
  [/\ ms_nx M = nxbar d, ms_np M = d_p d, ms_ny M = ny d & ms_nz M = nz d] -> (k < length cols)%coq_nat ->
  let t := List.nth k cols s0 in
  same_dir d (dir_of P (sx t) (sp t) (sw t))
    (sens_dir (of_msens d (MSens (rows_of (ms_nx M) (@sx RF) cols) (rows_of (ms_np M) (@sp RF) cols) (rows_of (ms_ny M + ms_nz M) (@sw RF) cols) (rows_of (ms_nx M) (@ss RF) cols))) k).
Proof.
move=> d [-> -> -> ->] kl t.
have RE n get i : (i < n)%coq_nat -> List.nth k (List.nth i (rows_of n get cols) nil) 0 = get t i.
  by move=> il; rewrite -/(ent (rows_of n get cols) i k) (ent_rows _ s0 il kl).
rewrite /same_dir /dir_of /sens_dir /of_msens /ent /= -/d.
rewrite /nxbar /ny /nz -!plusE.
do 7?[split].
- by move=> i il; rewrite nth_head // RE //; nlia.
- by move=> i il; rewrite RE.
- by move=> i il; rewrite nth_segment // RE //; nlia.
- by move=> i il; rewrite (@nth_tail _ (d_hg d) (d_x d + d_bg d)%coq_nat) ?rows_length // RE //; nlia.
- by move=> i il; rewrite nth_head // nth_head ?RE //; nlia.
- move=> i il; rewrite (@nth_tail _ (d_bg d) (d_be d)) ?nth_head ?RE //; try nlia.
  by rewrite /head firstn_length rows_length; nlia.
- move=> i il; rewrite nth_head // (@nth_tail _ _ (d_be d + d_bg d)%coq_nat) ?rows_length // RE //; nlia.
- move=> i il; rewrite (@nth_tail _ (d_hg d) (d_he d)); last by rewrite /tail skipn_length rows_length; nlia.
  by rewrite (@nth_tail _ _ (d_be d + d_bg d)%coq_nat) ?rows_length // RE //; nlia.
Qed.

(** ** C86.  Solver::solve with sensitivities returns what Solver::solve returns, and matrices with
    one column per parameter.  At the returned point, if the active constraints have independent gradients there and
    the differentiated optimality conditions (with the variables and constraints that are held kept so) have at
    most one solution, column k satisfies those equations for parameter k.  Missing: constraints that depend on a
    variable more weakly than the threshold of the echelonizer can tell; points that are not finite; the matrix sc (C61). *)
Theorem C86_equations_partial : forall part lu srt th sigma lus eps r0 s0 nonfinite newton phi check fuel o f1 f2 f3 oAx oAp obc w0 hist m P M st r st'
    x xbg xhg p ye yg ze zg,
  let d := p_dims P in let a := UPoint x xbg xhg p ye yg ze zg in let X := x ++ xbg ++ xhg in
  partition_contract part -> lu_correct lu -> sort_correct srt -> 0 <= th -> (forall n (A : 'M[RF]_n), full_piv A (lus n A)) -> 0 <= eps ->
  conforming P -> ordered_bounds P -> block_unspoiled f1 oAx d -> update_master f1 f2 f3 oAx oAp obc P = Some M ->
  length (p_c P) = d_c d -> state_sized d st -> length (s_p st) = d_p d ->
  (forall w, sized (nxbar d) (d_p d) (ny d + nz d) (snd (newton w))) ->
  (forall ph w xo x, phi = Some ph -> length x = nxbar d -> length (snd (ph w xo x)) = nxbar d) ->
  u_solve part (the_ech lu srt th sigma M) nonfinite newton phi check fuel o f1 f2 f3 oAx oAp obc w0 hist m P st = Some (r, st') ->
  starts_at st' x xbg xhg p ye yg ze zg ->
  (0 < d_be d + d_bg d + d_he d + d_hg d)%coq_nat -> licq P x xbg xhg p -> well_pivoted th M X p -> unique_tangent P a ->
  (forall h wt rr k, weights_at M X wt ->
     rf_update part (ms_nx M) (ms_np M) (ms_ny M) (ms_nz M) (m_data M X) (m_evals M X p) (m_Wx M X p) (m_Wp M X p)
       (the_ech lu srt th sigma M h (m_Wx M X p) (m_Wp M X p) wt).2 (MVec (vec X) (vec p) (vec (ye ++ yg ++ ze ++ zg))) = Some rr ->
     sens_resolved lus eps M X p rr k (r0 k)) ->
  exists S, u_solve_sens lus eps r0 s0 part (the_ech lu srt th sigma M) nonfinite newton phi check fuel o f1 f2 f3 oAx oAp obc w0 hist m P st = Some (r, st', S) /\
    sens_shaped d (d_c d) S /\ forall k, (k < d_c d)%coq_nat -> c_tangent P a k (sens_dir S k).
Proof.
move=> part lu srt th sigma lus eps r0 s0 nonfinite newton phi check fuel o f1 f2 f3 oAx oAp obc w0 hist m P M st r st' x xbg xhg p ye yg ze zg d a X.
move=> HC LC SC th0 LUS e0 C O B U Lc SS Lp HN HP S ST N0 LI WPV UT RS.
have [SS' [Lp' [s [S' [US Est]]]]] := open_solve C O SS Lp HN HP U S ST.
have [E1 [E3 [E4 [E2 [E5 [E6 [E7 E8]]]]]]] := ST.
have [LX [LYE [LYG [LZE [LZG [LG LH]]]]]] := SS'.
rewrite E1 E3 E4 E5 E6 E7 E8 !List.map_length in LX LG LH LYE LYG LZE LZG.
have EM : [/\ ms_nx M = nxbar d, ms_np M = d_p d, ms_ny M = ny d & ms_nz M = nz d] by rewrite (Meq _ _ _ _ _ _ _ _ U).
have NC : m_nc M = d_c d by rewrite /m_nc (Meq _ _ _ _ _ _ _ _ U) /= Lc.
have BC : bc_ok M.
  rewrite /bc_ok NC (Meq _ _ _ _ _ _ _ _ U) /= /master_bc /mput /=.
  by have [-> ->] := mresize_rows f3 obc (ny (p_dims P)) (d_c (p_dims P)); rewrite !eqxx orbT.
have HE : ech_contract M (the_ech lu srt th sigma M) by exact: C83_contract.
have [q [rr [[h [wt [WT EQ]]] HQ RU R1 R2]]] := w_update_fin nonfinite (s_w s) X p (ye ++ yg ++ ze ++ zg) HC HE.
rewrite EQ in RU.
have CO k : In k (List.seq 0 (m_nc M)) -> exists2 t, m_column M lus eps r0 s0 rr X p k = Some t & c_tangent P a k (dir_of P (sx t) (sp t) (sw t)).
  move=> /in_seq [_]; rewrite NC /= => kl.
  exact: (@column_ok part lu srt th sigma f1 f2 f3 oAx oAp obc P M HC LC SC th0 C U B a LX LG LH LYE LYG LZE LI WPV N0 h wt WT rr RU UT lus eps r0 s0 LUS e0 k kl (RS _ _ _ _ WT RU)).
have [cols EC [LCO HCO]] := all_columns_some (s0 0%N) CO.
have LCO' : length cols = d_c d by rewrite LCO seq_length NC.
eexists; split; last first.
- split; last first.
  + move=> k kl; have kl' : (k < length cols)%coq_nat by rewrite LCO'.
    have T : c_tangent P a k (dir_of P (sx (List.nth k cols (s0 0%N))) (sp (List.nth k cols (s0 0%N))) (sw (List.nth k cols (s0 0%N)))).
      by have := HCO k; rewrite seq_length NC seq_nth //=; apply.
    exact: tangent_ext _ _ _ _ _ _ _ _ _ _ (@sens_dir_of P M cols k (s0 0%N) EM kl') T.
  + have [-> -> -> ->] := EM; apply: of_msens_shaped; rewrite -LCO' -?plusE; exact: shape_rows.
- by rewrite /u_solve_sens U BC S' US /= R1 !finite_map /m_sens EC Est US.
Qed.
Print Assumptions C86_equations_partial.

(** If the derivatives returned by the user's functions are right and the Jacobians of he and hg do
    not change to first order, column k is the derivative of every differentiable path of solutions through the
    returned point, as parameter k moves. *)
Theorem C86_derivative_partial : forall part lu srt th sigma lus eps r0 s0 nonfinite newton phi check fuel o f1 f2 f3 oAx oAp obc w0 hist m P M st r st'
    x xbg xhg p ye yg ze zg,
  let d := p_dims P in let a := UPoint x xbg xhg p ye yg ze zg in let X := x ++ xbg ++ xhg in
  partition_contract part -> lu_correct lu -> sort_correct srt -> 0 <= th -> (forall n (A : 'M[RF]_n), full_piv A (lus n A)) -> 0 <= eps ->
  conforming P -> ordered_bounds P -> block_unspoiled f1 oAx d -> update_master f1 f2 f3 oAx oAp obc P = Some M ->
  length (p_c P) = d_c d -> state_sized d st -> length (s_p st) = d_p d ->
  (forall w, sized (nxbar d) (d_p d) (ny d + nz d) (snd (newton w))) ->
  (forall ph w xo x, phi = Some ph -> length x = nxbar d -> length (snd (ph w xo x)) = nxbar d) ->
  u_solve part (the_ech lu srt th sigma M) nonfinite newton phi check fuel o f1 f2 f3 oAx oAp obc w0 hist m P st = Some (r, st') ->
  starts_at st' x xbg xhg p ye yg ze zg ->
  (0 < d_be d + d_bg d + d_he d + d_hg d)%coq_nat -> licq P x xbg xhg p -> well_pivoted th M X p -> unique_tangent P a ->
  (forall h wt rr k, weights_at M X wt ->
     rf_update part (ms_nx M) (ms_np M) (ms_ny M) (ms_nz M) (m_data M X) (m_evals M X p) (m_Wx M X p) (m_Wp M X p)
       (the_ech lu srt th sigma M h (m_Wx M X p) (m_Wp M X p) wt).2 (MVec (vec X) (vec p) (vec (ye ++ yg ++ ze ++ zg))) = Some rr ->
     sens_resolved lus eps M X p rr k (r0 k)) ->
  exists S, u_solve_sens lus eps r0 s0 part (the_ech lu srt th sigma M) nonfinite newton phi check fuel o f1 f2 f3 oAx oAp obc w0 hist m P st = Some (r, st', S) /\
    forall k path be bg t, (k < d_c d)%coq_nat -> right_derivatives P k a -> steady_jacobians P k a ->
      solution_path P k a path be bg t -> same_dir d (sens_dir S k) t.
Proof.
move=> part lu srt th sigma lus eps r0 s0 nonfinite newton phi check fuel o f1 f2 f3 oAx oAp obc w0 hist m P M st r st' x xbg xhg p ye yg ze zg d a X.
move=> HC LC SC th0 LUS e0 C O B U Lc SS Lp HN HP S ST N0 LI WPV UT RS.
have [T [E [_ H]]] := C86_equations_partial s0 HC LC SC th0 LUS e0 C O B U Lc SS Lp HN HP S ST N0 LI WPV UT RS.
exists T; split=> // k path be bg t kl RD SJ SP.
apply: (tangent_unique _ _ _ _ _ _ _ _ _ _ UT (H k kl)).
apply: path_tangent RD SJ SP.
by rewrite Lc.
Qed.
Print Assumptions C86_derivative_partial.
