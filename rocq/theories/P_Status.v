(** Property theorem C84: the index sets and the stability measures of the returned state. *)
From Coq Require Import List PeanoNat Permutation Reals Lra Lia.
From mathcomp Require Import all_ssreflect all_algebra.
From Verif Require Import Num Num_facts Index_model Index_spec Index_proofs Num_rf R_rf Echelon_model Echelon_spec LU_model Linear_model Linear_spec Canonical_model Canonical_spec.
From Verif Require Import ResErr_model Residual_model Residual_spec Residual_proofs P_Residual Sens_proofs EchelonO_model EchelonO_spec EchelonO_proofs.
From Verif Require Import Loop_model Loop_spec P_Loop Wrapper_model Wrapper_spec Wrapper_proofs P_Wrapper Near_proofs Stay_proofs End_model End_spec Indep_proofs End_proofs P_End P_EchelonO Status_spec Status_proofs.
Set Implicit Arguments.
Unset Strict Implicit.
Unset Printing Implicit Defensive.
Import Order.TTheory GRing.Theory Num.Theory.
Local Open Scope ring_scope.
Local Notation "l ++ l'" := (List.app l l') : seq_scope.

Lemma app_indices part dd (l l' l'' : list nat) : partition_contract part ->
  Permutation (l ++ l') l'' -> Forall (fun i => (i < d_x dd + d_bg dd + d_hg dd)%coq_nat) l'' ->
  Permutation (user_indices part dd l ++ user_indices part dd l') (List.filter (fun i => Nat.ltb i (d_x dd)) l'').
Proof.
move=> HC PL FL.
have FA : Forall (fun i => (i < d_x dd + d_bg dd + d_hg dd)%coq_nat) (l ++ l') by apply/Forall_forall => i Hi; move/Forall_forall: FL; apply; apply: Permutation_in PL Hi.
have [F1 F2] := proj1 (Forall_app _ _ _) FA.
rewrite (C59_indices _ _ _ HC F1) (C59_indices _ _ _ HC F2) -List.filter_app.
exact: filter_perm.
Qed.
Lemma filter_indices n k : List.filter (fun i => Nat.ltb i n) (indices (n + k)) = List.seq 0 n.
Proof.
rewrite /indices -plusE seq_app List.filter_app filter_all; last by move=> i /in_seq [_ H]; apply/Nat.ltb_lt.
by rewrite filter_none ?app_nil_r // => i /in_seq [H _]; apply/Nat.ltb_ge.
Qed.
Lemma user_indices_in part dd l j : partition_contract part -> Forall (fun i => (i < d_x dd + d_bg dd + d_hg dd)%coq_nat) l ->
  In j (user_indices part dd l) <-> In j l /\ (j < d_x dd)%coq_nat.
Proof.
move=> HC FL; have PJ := C59_indices _ _ _ HC FL; split.
- by move=> /(Permutation_in _ PJ) /filter_In [? /Nat.ltb_lt].
- by move=> [? /Nat.ltb_lt ?]; apply: (Permutation_in _ (Permutation_sym PJ)); apply/filter_In.
Qed.

(** The returned state has the dimensions of the problem *)
Lemma returned_sized part E ech nonfinite newton phi check fuel o f1 f2 f3 oAx oAp obc (w0 : world E) hist m P st r st' : let d := p_dims P in
  conforming P -> ordered_bounds P -> state_sized d st -> length (s_p st) = d_p d ->
  (forall w, sized (nxbar d) (d_p d) (ny d + nz d) (snd (newton w))) ->
  (forall ph w xo x, phi = Some ph -> length x = nxbar d -> length (snd (ph w xo x)) = nxbar d) ->
  u_solve part ech nonfinite newton phi check fuel o f1 f2 f3 oAx oAp obc w0 hist m P st = Some (r, st') ->
  state_sized d st' /\ length (s_p st') = d_p d.
Proof.
move=> d C O SS Lp HN HP; rewrite /u_solve; case U: update_master => [M|//].
case S: m_solve => [[r0 s]|//] [ER ES]; rewrite -{}ES {st'}; rewrite {r0}ER in S.
have G := good_bounds_of C O U.
have EM : [/\ ms_nx M = nxbar d, ms_np M = d_p d, ms_ny M = ny d & ms_nz M = nz d] by rewrite (Meq _ _ _ _ _ _ _ _ U).
have [Enx Enp Eny Enz] := EM.
have SZ : sized (nxbar d) (d_p d) (ny d + nz d) (s_u s).
  have [SX [SY1 [SY2 [SY3 [SY4 [SY5 SY6]]]]]] := SS.
  rewrite Enx Enp in G.
  apply: (final_sized G _ HN HP S).
  by rewrite /sized /= !List.app_length SX SY1 SY2 SY3 SY4 SY5 SY6 /nxbar /ny /nz -!plusE; repeat split; try lia.
have := SZ; rewrite /sized; case US: (s_u s) => [sx sp sw] [L1 [L2 L3]]; rewrite /= in L1 L2 L3.
pose m' := finalize (to_master m st) (s_w s) (UVec sx sp sw).
have T1 : t_x m' = sx by rewrite /m' /finalize; case: w_res.
have T2 : t_p m' = sp by rewrite /m' /finalize; case: w_res.
have T3 : t_w m' = sw by rewrite /m' /finalize; case: w_res.
have [||CX [CW [CP [CS CV]]]] := C59_complete _ part d m' st.
- by rewrite T1 L1 /nxbar.
- by rewrite T3 L3 /ny /nz ?plusE; lia.
by split; [exact: CS | rewrite -/m' CP T2].
Qed.

(** ** C84.  Whatever the outcome of Solver::solve, what the returned state says about the variables is true of
    the point it contains, if that point is finite: s holds their stability measures; js and
    ju, jlu and juu, jb and jn divide them as their names say; jb is the part of a basis below dims.x; and if
    that basis is not empty the unstable variables are the non-basic ones that are on a bound
    and would improve beyond it. *)
Theorem C84_state_partial : forall part E ech nonfinite newton phi check fuel o f1 f2 f3 oAx oAp obc (w0 : world E) hist m P st r st'
    x xbg xhg p ye yg ze zg,
  let d := p_dims P in
  partition_contract part -> conforming P -> ordered_bounds P -> block_unspoiled f1 oAx d ->
  (forall M, update_master f1 f2 f3 oAx oAp obc P = Some M -> ech_contract M ech) ->
  state_sized d st -> length (s_p st) = d_p d ->
  (forall w, sized (nxbar d) (d_p d) (ny d + nz d) (snd (newton w))) ->
  (forall ph w xo x, phi = Some ph -> length x = nxbar d -> length (snd (ph w xo x)) = nxbar d) ->
  u_solve part ech nonfinite newton phi check fuel o f1 f2 f3 oAx oAp obc w0 hist m P st = Some (r, st') ->
  starts_at st' x xbg xhg p ye yg ze zg ->
  let X := x ++ xbg ++ xhg in let s := user_stability P x p ye yg ze zg in
  state_sized d st' /\ stability_is d st' s /\ sets_divide d st' /\
  exists M jb, update_master f1 f2 f3 oAx oAp obc P = Some M /\
    (exists a wt, weights_at M X wt /\ Permutation (qjb (ech a (m_Wx M X p) (m_Wp M X p) wt).2) jb) /\
    (forall j, In j (s_jb st') <-> In j jb /\ (j < d_x d)%coq_nat) /\
    (jb = nil -> s_ju st' = nil) /\ (jb <> nil -> unstable_are P st' x s).
Proof.
move=> part E ech nonfinite newton phi check fuel o f1 f2 f3 oAx oAp obc w0 hist m P st r st' x xbg xhg p ye yg ze zg d.
move=> HC C O B HE SS Lp HN HP.
rewrite /u_solve; case U: update_master => [M|//].
case S: m_solve => [[r0 s]|//] [ER ES]; rewrite -{}ES {st'}; rewrite {r0}ER in S.
have G := good_bounds_of C O U.
have EM : [/\ ms_nx M = nxbar d, ms_np M = d_p d, ms_ny M = ny d & ms_nz M = nz d] by rewrite (Meq _ _ _ _ _ _ _ _ U).
have [Enx Enp Eny Enz] := EM.
have SZ : sized (nxbar d) (d_p d) (ny d + nz d) (s_u s).
  have [SX [SY1 [SY2 [SY3 [SY4 [SY5 SY6]]]]]] := SS.
  rewrite Enx Enp in G.
  apply: (final_sized G _ HN HP S).
  by rewrite /sized /= !List.app_length SX SY1 SY2 SY3 SY4 SY5 SY6 /nxbar /ny /nz -!plusE; repeat split; try lia.
have := SZ; rewrite /sized; case US: (s_u s) => [sx sp sw] [L1 [L2 L3]]; rewrite /= in L1 L2 L3.
pose m' := finalize (to_master m st) (s_w s) (UVec sx sp sw).
have T1 : t_x m' = sx by rewrite /m' /finalize; case: w_res.
have T2 : t_p m' = sp by rewrite /m' /finalize; case: w_res.
have T3 : t_w m' = sw by rewrite /m' /finalize; case: w_res.
have [||CX [CW [CP [CS CV]]]] := C59_complete _ part d m' st.
- by rewrite T1 L1 /nxbar.
- by rewrite T3 L3 /ny /nz ?plusE; lia.
rewrite -/d -/m' => -[E1 [E3 [E4 [E2 [E5 [E6 [E7 E8]]]]]]]; set X := x ++ xbg ++ xhg; set ss := user_stability P x p ye yg ze zg.
rewrite E1 E3 E4 -!List.map_app T1 in CX; rewrite E5 E6 E7 E8 -!List.map_app T3 in CW; rewrite E2 T2 in CP.
have LX : length x = d_x d by have [<- _] := CS; rewrite E1 List.map_length.
have LG : length xbg = d_bg d by have [_ [_ [_ [_ [_ [<- _]]]]]] := CS; rewrite E3 List.map_length.
have LH : length xhg = d_hg d by have [_ [_ [_ [_ [_ [_ <-]]]]]] := CS; rewrite E4 List.map_length.
have LYE : length ye = d_be d by have [_ [<- _]] := CS; rewrite E5 List.map_length.
have LYG : length yg = d_bg d by have [_ [_ [<- _]]] := CS; rewrite E6 List.map_length.
have LZE : length ze = d_he d by have [_ [_ [_ [<- _]]]] := CS; rewrite E7 List.map_length.
have [[w' Ew] _] := @C49_success_sound _ _ _ _ _ _ _ _ _ _ _ _ _ _ _ _ S.
have [q [rr [[a [wt [WT EQ]]] HQ RU R1 R2]]] := w_update_fin nonfinite w' X p (ye ++ yg ++ ze ++ zg) HC (HE M U).
have {}R1 : w_res (s_w s) = Some rr by rewrite Ew US -CX -CP -CW.
have [EMM CVW _] := rf_update_view HC HQ RU.
have LAG j : (j < d_x d)%coq_nat -> lagrangian (ms_ny M) (ms_nz M) (m_evals M X p) (m_Wx M X p) (MVec (vec X : rawvec RF) (vec p : rawvec RF) (vec (ye ++ yg ++ ze ++ zg) : rawvec RF)) j = ss j.
  move=> jl; rewrite lagrangian_spec.
  rewrite -[RHS](lag_x _ _ _ _ _ _ _ _ U (unspoiled_block _ _ _ B) _ _ xbg xhg _ _ _ _ LX LG LH LYE LYG LZE j jl).
  by rewrite Eny Enz.
have BD j : (j < d_x d)%coq_nat -> bd (ms_xlower M) j = bd (p_xlower P) j /\ bd (ms_xupper M) j = bd (p_xupper P) j.
  exact: (bd_x _ _ _ _ _ _ _ _ C U).
have XJ j : (j < d_x d)%coq_nat -> at_ X j = at_ x j by move=> jl; exact: (xbar_x P x xbg xhg LX).
have [SL SV] := status_s RU.
have [EU [EJ0 EJ1]] := status_lu HC HQ RU.
have PS := status_part HC HQ RU.
have [PE _ _ _] := cv_echelon CVW.
rewrite Enx in PS PE.
have FX (l : list nat) k : Permutation (indices (nxbar d)) (l ++ k) ->
    Forall (fun i => (i < d_x d + d_bg d + d_hg d)%coq_nat) l /\ Forall (fun i => (i < d_x d + d_bg d + d_hg d)%coq_nat) k.
  move=> PM; apply: (proj1 (Forall_app _ _ _)); apply/Forall_forall => i /(Permutation_in _ (Permutation_sym PM)).
  by move=> /in_seq [_].
have FN : Forall (fun i => (i < d_x d + d_bg d + d_hg d)%coq_nat) (indices (nxbar d)) by apply/Forall_forall => i /in_seq [_].
have [FS FU] := FX _ _ PS; have [FB FNB] := FX _ _ PE.
have [FL FUU] : Forall (fun i => (i < d_x d + d_bg d + d_hg d)%coq_nat) (status_jlu (rst rr)) /\ Forall (fun i => (i < d_x d + d_bg d + d_hg d)%coq_nat) (status_juu (rst rr)).
  by apply: (proj1 (Forall_app _ _ _)); rewrite -EU.
have EN : nxbar d = (d_x d + (d_bg d + d_hg d))%N by rewrite /nxbar -!plusE; lia.
have M' : m' = MState sx sp sw (List.map XF (st_s (rst rr))) (status_js (rst rr)) (status_ju (rst rr)) (status_jlu (rst rr)) (status_juu (rst rr)) (kjb (rc rr)) (kjn (rc rr)).
  by rewrite /m' /finalize R1.
have NB j : (j < nxbar d)%coq_nat -> (~ In j (qjb q) <-> In j (kjn (rc rr))).
  move=> jl; have NDX := Permutation_NoDup PE (seq_NoDup _ _).
  have IX : In j (kjb (rc rr) ++ kjn (rc rr)) by apply: (Permutation_in _ PE); apply/in_seq; lia.
  split=> [NI|I1 I2].
  - by case: (in_app_or _ _ _ IX) => // I1; case: NI; apply: Permutation_in (Permutation_sym (cv_basic CVW)) I1.
  - have I3 := Permutation_in _ (cv_basic CVW) I2.
    by elim: (kjb (rc rr)) NDX I3 => //= b l IH /NoDup_cons_iff [H1 H2] [EB|]; [apply: H1; rewrite EB; apply: in_or_app; right | exact: IH].
split; first exact: CS.
split.
  rewrite /stability_is CV M' /= firstn_length List.map_length SL Enx /nxbar; split; first by lia.
  move=> j jl; rewrite -(LAG j jl) -SV; last by rewrite Enx /nxbar; apply/ssrnat.ltP; lia.
  have jl' : (j < length (List.map XF (st_s (rst rr))))%coq_nat by rewrite List.map_length SL Enx /nxbar; lia.
  rewrite -(List.map_nth XF) -(List.nth_indep _ XNaN (XF R0) jl') -{2}(firstn_skipn (d_x d) (List.map XF _)).
  by rewrite app_nth1 // firstn_length List.map_length SL Enx /nxbar; lia.
split.
  rewrite /sets_divide /of_master M' /=; split; last split.
  - by rewrite -(filter_indices (d_x d) (d_bg d + d_hg d)) -EN; apply: app_indices => //; apply: Permutation_sym.
  - apply: Permutation_trans (app_indices HC (Permutation_refl _) _) _; first by rewrite -EU.
    by rewrite -EU; apply: Permutation_sym; exact: C59_indices.
  - by rewrite -(filter_indices (d_x d) (d_bg d + d_hg d)) -EN; apply: app_indices => //; apply: Permutation_sym.
exists M, (kjb (rc rr)); split=> //; split; first by exists a, wt; split=> //; rewrite -EQ; exact: cv_basic CVW.
rewrite /unstable_are /of_master M' /=.
split; first by move=> j; exact: user_indices_in.
split=> [J0|J0].
  rewrite EJ0; first by apply: Permutation_nil; apply: Permutation_sym; apply: (C59_indices _ _ nil HC).
  by apply: Permutation_nil; rewrite -J0; apply: Permutation_sym; exact: cv_basic CVW.
have QN : qjb q <> nil.
  by move=> Q0; apply: J0; apply: Permutation_nil; rewrite -Q0; exact: cv_basic CVW.
move=> j; rewrite !user_indices_in //.
have [HL HU] := EJ1 QN j.
have RG : In j (kjn (rc rr)) -> (j < nxbar d)%coq_nat by move/Forall_forall: FNB; exact.
have bE b : (j < d_x d)%coq_nat -> (vec X j = bnum b (vec X j) <-> b = XF (at_ x j)).
  move=> jl; rewrite -(XJ j jl); split=> [/bnum_bound //|->]; by [].
split; [rewrite HL | rewrite HU]; (split=> [[[H1 [H2 [H3 H4]]] jl]|[[H1 jl] [H2 H3]]]).
- have [BL _] := BD j jl; rewrite LAG // in H4; split; last split.
  + by split=> //; apply/NB => //; rewrite EN -plusE; lia.
  + by rewrite -BL; apply/bE.
  + exact/R_ltP.
- have [BL _] := BD j jl; split=> //; split; last split; last split.
  + by rewrite Enx; apply/ssrnat.ltP; exact: RG.
  + by apply/NB => //; exact: RG.
  + by apply/bE => //; rewrite -/(bd _ _) BL.
  + by rewrite LAG //; apply/R_ltP.
- have [_ BU] := BD j jl; rewrite LAG // in H4; split; last split.
  + by split=> //; apply/NB => //; rewrite EN -plusE; lia.
  + by rewrite -BU; apply/bE.
  + exact/R_ltP.
- have [_ BU] := BD j jl; split=> //; split; last split; last split.
  + by rewrite Enx; apply/ssrnat.ltP; exact: RG.
  + by apply/NB => //; exact: RG.
  + by apply/bE => //; rewrite -/(bd _ _) BU.
  + by rewrite LAG //; apply/R_ltP.
Qed.
Print Assumptions C84_state_partial.

(** With the echelonizer object, for a problem with constraints whose gradients are independent
    (those of the equality constraints) at the returned point, this is all in terms of the state and the problem.
    Missing: points that are not finite. *)
Theorem C84_constrained_partial : forall part lu srt th sigma nonfinite newton phi check fuel o f1 f2 f3 oAx oAp obc w0 hist m P M st r st'
    x xbg xhg p ye yg ze zg,
  let d := p_dims P in
  partition_contract part -> lu_correct lu -> sort_correct srt -> 0 <= th ->
  conforming P -> ordered_bounds P -> block_unspoiled f1 oAx d -> update_master f1 f2 f3 oAx oAp obc P = Some M ->
  state_sized d st -> length (s_p st) = d_p d ->
  (forall w, sized (nxbar d) (d_p d) (ny d + nz d) (snd (newton w))) ->
  (forall ph w xo x, phi = Some ph -> length x = nxbar d -> length (snd (ph w xo x)) = nxbar d) ->
  u_solve part (the_ech lu srt th sigma M) nonfinite newton phi check fuel o f1 f2 f3 oAx oAp obc w0 hist m P st = Some (r, st') ->
  starts_at st' x xbg xhg p ye yg ze zg ->
  (0 < d_be d + d_bg d + d_he d + d_hg d)%coq_nat -> independent_equalities P x p ->
  let s := user_stability P x p ye yg ze zg in
  state_sized d st' /\ stability_is d st' s /\ sets_divide d st' /\ unstable_are P st' x s.
Proof.
move=> part lu srt th sigma nonfinite newton phi check fuel o f1 f2 f3 oAx oAp obc w0 hist m P M st r st' x xbg xhg p ye yg ze zg d.
move=> HC LC SC th0 C O B U SS Lp HN HP S ST N0 I s.
have HE M' : update_master f1 f2 f3 oAx oAp obc P = Some M' -> ech_contract M' (the_ech lu srt th sigma M).
  by rewrite U => -[<-]; exact: C83_contract.
have [SS' [H1 [H2 [M' [jb [U' [[a [wt [WT PM]]] [_ [_ UN]]]]]]]]] := C84_state_partial HC C O B HE SS Lp HN HP S ST.
do 3![split=> //]; apply: UN => J0.
have EMM : M' = M by move: U'; rewrite U => -[].
move: PM; rewrite EMM J0 => /Permutation_length.
have [LX [_ [_ [_ [_ [LG LH]]]]]] := SS'; have [E1 [E3 [E4 _]]] := ST.
rewrite E1 E3 E4 !List.map_length in LX LG LH.
rewrite (the_ech_full _ _ _ LC SC th0 U B LX LG LH I) -/d /= => E0; move: N0 E0; rewrite -!plusE; lia.
Qed.
Print Assumptions C84_constrained_partial.

(** Without constraints no variable is ever unstable: min x subject to 0 <= x <= 1 returns x = 0 with
    s = 1, a variable on its lower bound that would improve beyond it, and jlu is empty. *)
Theorem C84_bounds_only_refuted :
  (forall part E ech nonfinite newton phi check fuel o f1 f2 f3 oAx oAp obc (w0 : world E) hist m st r st',
   partition_contract part -> (forall M, update_master f1 f2 f3 oAx oAp obc P76 = Some M -> ech_contract M ech) ->
   state_sized (p_dims P76) st -> length (s_p st) = 0%N ->
   (forall w, sized 1 0 0 (snd (newton w))) -> (forall ph w xo x, phi = Some ph -> length x = 1%N -> length (snd (ph w xo x)) = 1%N) ->
   u_solve part ech nonfinite newton phi check fuel o f1 f2 f3 oAx oAp obc w0 hist m P76 st = Some (r, st') ->
   s_x st' = XF R0 :: nil ->
   s_ju st' = nil /\ ~ unstable_are P76 st' (R0 :: nil) (user_stability P76 (R0 :: nil) nil nil nil nil nil)) /\
  exists st r st', u_solve libstdcxx_partition (fun a _ _ _ => (a, RWQ (fun _ _ => R0) (fun _ _ => R0) (fun _ _ => R0) nil (0%N :: nil))) (fun a _ => (a, XNaN))
     (fun w => (w, fin (R0 :: nil) nil nil)) None None 1 (Options 1 XPInf false) mem7 mem7 mem7 old7 old7 old7 w57 nil m0 P76 st = Some (r, st') /\
     state_sized (p_dims P76) st /\ s_x st' = XF R0 :: nil.
Proof.
have LE a b : Rle a b -> rleb a b = true by move=> H; rewrite /rleb; case: Rle_dec.
have OB : ordered_bounds P76.
  by split=> //; split; repeat constructor; apply: LE; lra.
have CF : conforming P76 by repeat split.
have BU f1 oAx : block_unspoiled f1 oAx (p_dims P76) by left.
split.
- move=> part E ech nonfinite newton phi check fuel o f1 f2 f3 oAx oAp obc w0 hist m st r st' HC HE SS Lp HN HP S EX.
  have [SS' LP'] := returned_sized CF OB SS Lp HN HP S.
  have NL (l : list xreal) : length l = 0%N -> l = List.map XF nil by case: l.
  have [S1 [S2 [S3 [S4 [S5 [S6 S7]]]]]] := SS'.
  have ST : starts_at st' (R0 :: nil) nil nil nil nil nil nil nil.
    by split=> //; do 6![split; first exact: NL]; exact: NL.
  have [_ [_ [SD [M [jb [U [[a [wt [WT PM]]] [JJ [J0 _]]]]]]]]] := C84_state_partial HC CF OB (BU f1 oAx) HE SS Lp HN HP S ST.
  have B0 : jb = nil.
    have := HE M U a ((R0 :: nil) ++ nil ++ nil) nil wt nil.
    have [E3 E4] : ms_ny M = 0%N /\ ms_nz M = 0%N by rewrite (Meq _ _ _ _ _ _ _ _ U).
    move: PM; case: (qjb _) => [PM _|j l _ [_ H _ _]]; first exact: Permutation_nil.
    by move: (H 0%N 0%N isT isT); rewrite E3 E4 big_ord0 => /eqP; rewrite eq_sym oner_eq0.
  have E0 : s_ju st' = nil := J0 B0.
  split=> // /(_ 0%N) [H _].
  have [D1 [D2 D3]] := SD.
  have JB : ~ In 0%N (s_jb st').
    by move/JJ => [H0 _]; rewrite B0 in H0.
  have JL : s_jlu st' = nil.
    by move: D2; rewrite E0 => /Permutation_sym/Permutation_nil; case: (s_jlu st').
  have : In 0%N (s_jlu st'); last by rewrite JL.
  apply/H; split; last split=> //.
  + have : In 0%N (s_jb st' ++ s_jn st') by apply: (Permutation_in _ (Permutation_sym D3)); left.
    by case/in_app_iff.
  + by rewrite /user_stability /=; lra.
- exists (UState (p_dims P76) (XF R0 :: nil) nil nil nil nil nil nil nil nil nil nil nil nil nil nil).
  rewrite /u_solve; case U: update_master => [M|//].
  have EM : [/\ ms_nx M = 1%N, ms_np M = 0%N, ms_ny M = 0%N & ms_nz M = 0%N] by rewrite (Meq _ _ _ _ _ _ _ _ U).
  have [E1 E2 E3 E4] := EM.
  pose ech := fun (a : unit) (_ _ : rawmx RF) (_ : rawvec RF) => (a, RWQ (fun _ _ => R0) (fun _ _ => R0) (fun _ _ => R0) nil (0%N :: nil) : rwq RF).
  have HE : ech_contract M ech.
    by move=> a x p wt ju; rewrite E1 E2 E3 E4 /=; split.
  rewrite /m_solve.
  have [||||||||s [S [Us [w' Ws]]]] := @solve_stays (world unit) (w_update libstdcxx_partition M ech (fun a _ => (a, XNaN))) (fun w _ => w_err w) (fun w => (w, fin (R0 :: nil) nil nil)) None (m_bounds M) (Options 1 XPInf false) (R0 :: nil) nil nil _ _ _ _ _ _ _ _ (le_n 1) 0 w57 nil.
  + by rewrite (Meq _ _ _ _ _ _ _ _ U).
  + by rewrite (Meq _ _ _ _ _ _ _ _ U).
  + by rewrite (Meq _ _ _ _ _ _ _ _ U).
  + by rewrite (Meq _ _ _ _ _ _ _ _ U).
  + by rewrite (Meq _ _ _ _ _ _ _ _ U); case=> [|i] /= H; [split; apply: LE; rewrite /=; lra | lia].
  + by move=> i /=; lia.
  + by [].
  + by move=> w; have [q [rr [_ _ _ _ ->]]] := w_update_fin (fun a _ => (a, XNaN)) w (R0 :: nil) nil nil libstdcxx_contract HE.
  rewrite [solve _ _ _ _ _ _ _ _ _ _ _ _]S.
  eexists; eexists; split; [reflexivity | split; first by repeat split].
  rewrite Us /of_master /finalize /=; case: w_res => [?|] //.
Qed.
Print Assumptions C84_bounds_only_refuted.

(** min x0 + 2 x1 subject to x0 + x1 = 1, x >= 0, at its solution (1, 0) with multiplier -1: the
    second variable is the lower unstable one *)
Definition f84 : ofun R := fun x p c r =>
  ORes (Rplus (at_ x 0) (Rmult (IZR 2) (at_ x 1))) (fun i => if Nat.eqb i 0 then R1 else IZR 2) (o_fxx r) (o_fxp r) (o_fxc r) true false true.
Definition P84 : problem R xreal := Problem (Dims 2 0 1 0 0 0 0) None (Some f84) (Some cfn0) (Some cfn0) (Some cfn0)
  (fun _ _ => R1) mzeros mzeros mzeros (R1 :: nil) nil (XF R0 :: XF R0 :: nil) (XPInf :: XPInf :: nil) nil nil nil mzeros mzeros.
Definition st84 : ustate xreal := UState (p_dims P84) (XF R1 :: XF R0 :: nil) nil (XF (IZR (-1)) :: nil) nil nil nil nil nil nil nil nil nil nil nil nil.
Example C84_case : exists r st',
  u_solve libstdcxx_partition (fun a _ _ _ => (a, q57)) (fun a _ => (a, XNaN)) (fun w => (w, fin (R0 :: R0 :: nil) nil (R0 :: nil))) None None 1
    (Options 5 XPInf false) mem7 mem7 mem7 old7 old7 old7 w57 nil m0 P84 st84 = Some (r, st') /\
  starts_at st' (R1 :: R0 :: nil) nil nil nil (IZR (-1) :: nil) nil nil nil /\
  (forall j, In j (s_jb st') <-> j = 0%N) /\ (forall j, In j (s_jlu st') <-> j = 1%N) /\ s_juu st' = nil /\ s_s st' = XF R0 :: XF R1 :: nil.
Proof.
have LE a b : Rle a b -> rleb a b = true by move=> H; rewrite /rleb; case: Rle_dec.
have OB : ordered_bounds P84 by split=> //; split; repeat constructor.
have BU : block_unspoiled mem7 old7 (p_dims P84) by right; left.
have CF : conforming P84 by repeat split.
have HE M : update_master mem7 mem7 mem7 old7 old7 old7 P84 = Some M -> ech_contract M (fun (a : unit) _ _ _ => (a, q57)).
  move=> U a x p wt ju.
  have EM : [/\ ms_nx M = 2%N, ms_np M = 0%N, ms_ny M = 1%N & ms_nz M = 0%N] by rewrite (Meq _ _ _ _ _ _ _ _ U).
  have [E1 E2 E3 E4] := EM; rewrite E1 E2 E3 E4 /=.
  have W0 : m_Wx M x p 0%N 0%N = 1 by rewrite /m_Wx E3 (Meq _ _ _ _ _ _ _ _ U).
  have W1 : m_Wx M x p 0%N 1%N = 1 by rewrite /m_Wx E3 (Meq _ _ _ _ _ _ _ _ U).
  split.
  - exact: Permutation_refl.
  - by case=> // -[] // _ _; rewrite big_ord_recl big_ord0 /= W0 mulr1 addr0.
  - by case=> // -[] // _ _; rewrite big_ord_recl big_ord0 /= W1 mulr1 addr0.
  - by [].
have [r [st' [S ST]]] : exists r st',
  u_solve libstdcxx_partition (fun a _ _ _ => (a, q57)) (fun a _ => (a, XNaN)) (fun w => (w, fin (R0 :: R0 :: nil) nil (R0 :: nil))) None None 1
    (Options 5 XPInf false) mem7 mem7 mem7 old7 old7 old7 w57 nil m0 P84 st84 = Some (r, st') /\
  starts_at st' (R1 :: R0 :: nil) nil nil nil (IZR (-1) :: nil) nil nil nil.
  rewrite /u_solve; case U: update_master => [M|//].
  have {}HE := HE M U; rewrite /m_solve.
  have [||||||||s [S [Us [w' Ws]]]] := @solve_stays (world unit) (w_update libstdcxx_partition M (fun a _ _ _ => (a, q57)) (fun a _ => (a, XNaN))) (fun w _ => w_err w) (fun w => (w, fin (R0 :: R0 :: nil) nil (R0 :: nil))) None (m_bounds M) (Options 5 XPInf false) (R1 :: R0 :: nil) nil (IZR (-1) :: nil) _ _ _ _ _ _ _ _ (ltac:(rewrite /=; lia)) 0 w57 nil.
  + by rewrite (Meq _ _ _ _ _ _ _ _ U).
  + by rewrite (Meq _ _ _ _ _ _ _ _ U).
  + by rewrite (Meq _ _ _ _ _ _ _ _ U).
  + by rewrite (Meq _ _ _ _ _ _ _ _ U).
  + by rewrite (Meq _ _ _ _ _ _ _ _ U); case=> [|[|i]] /= H; try lia; split=> //; apply: LE; rewrite /=; lra.
  + by move=> i /=; lia.
  + by [].
  + by move=> w; have [q [rr [_ _ _ _ ->]]] := w_update_fin (fun a _ => (a, XNaN)) w (R1 :: R0 :: nil) nil (IZR (-1) :: nil) libstdcxx_contract HE.
  rewrite [solve _ _ _ _ _ _ _ _ _ _ _ _]S; eexists; eexists; split; first reflexivity.
  by rewrite Us /of_master /finalize /=; case: w_res => [?|].
exists r, st'; do 2![split=> //].
have [||||SS' [[L1 HS] [[D1 [D2 D3]] [M [jb [U [[a [wt [WT PM]]] [JJ [_ UN]]]]]]]]] := C84_state_partial libstdcxx_contract CF OB BU HE _ _ _ _ S ST.
- by repeat split.
- by [].
- by move=> w; repeat split.
- by [].
have E0 : jb = 0%N :: nil.
  exact: Permutation_length_1_inv PM.
have JB j : In j (s_jb st') <-> j = 0%N by rewrite JJ E0 /=; split=> [[[->|[]] _]|->] //; split; [left | lia].
have JN j : In j (s_jn st') <-> j = 1%N.
  have ND : NoDup (s_jb st' ++ s_jn st') by apply: (Permutation_NoDup (Permutation_sym D3)); exact: seq_NoDup.
  split=> [H|->].
  - have : In j (List.seq 0 2) by apply: (Permutation_in _ D3); apply/in_app_iff; right.
    case=> [J0|[<-|[]]] //; move: H; rewrite -J0 => H.
    have [l1 [l2 E]] := in_split _ _ (proj2 (JB 0%N) erefl).
    rewrite E -app_assoc in ND; exfalso; apply: (NoDup_remove_2 _ _ _ ND).
    by do 2![apply/in_app_iff; right].
  - have : In 1%N (s_jb st' ++ s_jn st') by apply: (Permutation_in _ (Permutation_sym D3)); right; left.
    by case/in_app_iff => // /JB.
have {}UN : unstable_are P84 st' (R1 :: R0 :: nil) (user_stability P84 (R1 :: R0 :: nil) nil (IZR (-1) :: nil) nil nil nil) by apply: UN; rewrite E0.
split=> //; split; last split.
- move=> j; have [-> _] := UN j; rewrite JN; split=> [[->]|->] //; split=> //; split=> //.
  by rewrite /user_stability /at_ /=; lra.
- case E: (s_juu st') => [|j l] //; have [_ H] := UN j.
  have : In j (s_juu st') by rewrite E; left.
  by move/H => [/JN -> [/= ]].
- move: L1 HS; case: (s_s st') => [|a0 [|a1 [|]]] // _ HS.
  have := HS 0%N ltac:(rewrite /=; lia); have := HS 1%N ltac:(rewrite /=; lia) => /= -> ->.
  by rewrite /user_stability /at_ /=; do 3?f_equal; lra.
Qed.
