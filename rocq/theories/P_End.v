(** Property theorems C75 and C76: the calculation as a whole, in exact arithmetic. *)
From Coq Require Import List PeanoNat Permutation Reals Lra Lia.
From mathcomp Require Import all_ssreflect all_algebra.
From Verif Require Import Num Num_facts Index_model Index_spec Index_proofs MatUtil_model Num_rf R_rf LU_model Linear_model Linear_spec Canonical_model Canonical_spec Canonical_proofs.
From Verif Require Import ResErr_model Residual_model Residual_spec Residual_proofs P_Residual.
From Verif Require Import Loop_model Loop_spec Loop_proofs P_Loop Wrapper_model Wrapper_spec Wrapper_proofs P_Wrapper Stay_proofs End_model End_spec Near_proofs End_proofs.
Set Implicit Arguments.
Unset Strict Implicit.
Unset Printing Implicit Defensive.
Import Order.TTheory GRing.Theory Num.Theory.
Local Open Scope ring_scope.
Local Notation "l ++ l'" := (List.app l l') : seq_scope.

(** The bounds of a problem have the right number and are ordered *)
Definition ordered_bounds (P : problem R xreal) : Prop :=
  length (p_plower P) = d_p (p_dims P) /\
  Forall2 (fun l h => xleb l h = true) (p_xlower P) (p_xupper P) /\ Forall2 (fun l h => xleb l h = true) (p_plower P) (p_pupper P).

Lemma good_bounds_of f1 f2 f3 oAx oAp obc P M : conforming P -> ordered_bounds P ->
  update_master f1 f2 f3 oAx oAp obc P = Some M -> good_bounds (ms_nx M) (ms_np M) (m_bounds M).
Proof.
move=> [C1 [C2 [C3 C4]]] [O1 [O2 O3]] U; rewrite (Meq _ _ _ _ _ _ _ _ U) /good_bounds /=.
rewrite /master_xlower /master_xupper List.app_length repeat_length C3.
split; first by rewrite /nxbar; lia.
split=> //; split=> //; apply: Forall2_app => //.
by elim: (_ + _)%coq_nat => [|n IH] /=; constructor.
Qed.

Lemma final_sized (T : Type) (N : Num T) (W : Type) fupdate ferror newton phi check
    (nx np nw : nat) (B : bounds T) o fuel (w : W) hist u r s :
  good_bounds nx np B -> sized nx np nw u -> (forall w, sized nx np nw (snd (newton w))) ->
  (forall ph w xo x, phi = Some ph -> length x = nx -> length (snd (ph w xo x)) = nx) ->
  solve W fupdate ferror newton phi check fuel B o w hist u = Some (r, s) -> sized nx np nw (s_u s).
Proof.
move=> G SZ HN HP S; have F := C47_sizes _ _ _ _ _ _ _ _ _ _ _ _ _ _ _ _ _ _ _ G SZ HN HP S.
move: S; rewrite /solve; case E: loop => [s'|//] [_ ES]; rewrite -ES in F *.
apply loop_final in E => //; last exact: Nat.le_0_l.
have [_ [_ [_ [older [errs [EI _]]]]]] := E.
by move: F; rewrite EI => F; inversion F.
Qed.

(** ** C75.  When Solver::solve reports success, the returned state is an approximate KKT
    point of the user's problem. *)
Theorem C75_success_partial : forall part E ech nonfinite newton phi fuel o f1 f2 f3 oAx oAp obc (w0 : world E) hist m P st r st'
    tol x xbg xhg p ye yg ze zg,
  let d := p_dims P in
  partition_contract part -> conforming P -> ordered_bounds P -> block_unspoiled f1 oAx d ->
  (forall M, update_master f1 f2 f3 oAx oAp obc P = Some M -> ech_contract M ech) ->
  state_sized d st -> length (s_p st) = d_p d ->
  (forall w, sized (nxbar d) (d_p d) (ny d + nz d) (snd (newton w))) ->
  (forall ph w xo x, phi = Some ph -> length x = nxbar d -> length (snd (ph w xo x)) = nxbar d) ->
  o_tol o = XF tol ->
  u_solve part ech nonfinite newton phi None fuel o f1 f2 f3 oAx oAp obc w0 hist m P st = Some (r, st') ->
  r_succeeded r = true ->
  s_x st' = List.map XF x -> s_p st' = List.map XF p -> s_xbg st' = List.map XF xbg -> s_xhg st' = List.map XF xhg ->
  s_ye st' = List.map XF ye -> s_yg st' = List.map XF yg -> s_ze st' = List.map XF ze -> s_zg st' = List.map XF zg ->
  let X := x ++ xbg ++ xhg in
  state_sized d st' /\
  exists M jb, update_master f1 f2 f3 oAx oAp obc P = Some M /\
    (exists a wt, weights_at M X wt /\ Permutation (qjb (ech a (m_Wx M X p) (m_Wp M X p) wt).2) jb) /\
    user_near P tol jb x xbg xhg p ye yg ze zg /\
    (forall j, In j (s_jb st') <-> In j jb /\ (j < d_x d)%coq_nat) /\
    (length jb = (d_be d + d_bg d + d_he d + d_hg d)%coq_nat ->
     exists V, inverts M X p jb V /\ user_constraints_near P (allowed M X p tol jb V) x xbg xhg p).
Proof.
move=> part E ech nonfinite newton phi fuel o f1 f2 f3 oAx oAp obc w0 hist m P st r st' tol x xbg xhg p ye yg ze zg d.
move=> HC C O B HE SS Lp HN HP TOL.
rewrite /u_solve; case U: update_master => [M|//].
case S: m_solve => [[r0 s]|//] [ER ES]; rewrite -{}ES {st'}; rewrite {r0}ER in S => OK.
have G := good_bounds_of C O U.
have EM : [/\ ms_nx M = nxbar d, ms_np M = d_p d, ms_ny M = ny d & ms_nz M = nz d] by rewrite (Meq _ _ _ _ _ _ _ _ U).
have [Enx Enp Eny Enz] := EM.
have SZ : sized (nxbar d) (d_p d) (ny d + nz d) (s_u s).
  have [SX [SY1 [SY2 [SY3 [SY4 [SY5 SY6]]]]]] := SS.
  rewrite Enx Enp in G.
  apply: (final_sized G _ HN HP S).
  by rewrite /sized /= !List.app_length SX SY1 SY2 SY3 SY4 SY5 SY6 /nxbar /ny /nz -!plusE; repeat split; try lia.
have := SZ; rewrite /sized; case US: (s_u s) => [sx sp sw] [L1 [L2 L3]]; rewrite /= in L1 L2 L3.
pose m' := finalize (to_master m st) (s_w s) (UVec sx sp sw).
have T1 : t_x m' = sx by rewrite /m' /finalize; case: w_res.
have T2 : t_p m' = sp by rewrite /m' /finalize; case: w_res.
have T3 : t_w m' = sw by rewrite /m' /finalize; case: w_res.
have [||CX [CW [CP [CS _]]]] := C59_complete _ part d m' st.
- by rewrite T1 L1 /nxbar.
- by rewrite T3 L3 /ny /nz ?plusE; lia.
rewrite -/d -/m' => E1 E2 E3 E4 E5 E6 E7 E8.
rewrite E1 E3 E4 -!List.map_app T1 in CX; rewrite E5 E6 E7 E8 -!List.map_app T3 in CW; rewrite E2 T2 in CP.
have LX : length x = d_x d by have [<- _] := CS; rewrite E1 List.map_length.
have LG : length xbg = d_bg d by have [_ [_ [_ [_ [_ [<- _]]]]]] := CS; rewrite E3 List.map_length.
have LH : length xhg = d_hg d by have [_ [_ [_ [_ [_ [_ <-]]]]]] := CS; rewrite E4 List.map_length.
have LYE : length ye = d_be d by have [_ [<- _]] := CS; rewrite E5 List.map_length.
have LYG : length yg = d_bg d by have [_ [_ [<- _]]] := CS; rewrite E6 List.map_length.
have LZE : length ze = d_he d by have [_ [_ [_ [<- _]]]] := CS; rewrite E7 List.map_length.
have [|||rr [RR [MN PQ]]] := solve_near (x := x ++ xbg ++ xhg) (p := p) (w := ye ++ yg ++ ze ++ zg) HC (HE M U) G _ _ S OK TOL.
- by rewrite Enx !List.app_length LX LG LH /nxbar; lia.
- by rewrite Enp -L2 -CP List.map_length.
- by rewrite US CX CP CW.
have [UN UC] := near_user _ _ _ _ _ _ _ _ C U (unspoiled_block _ _ _ B) _ _ _ _ _ _ _ _ LX LG LH LYE LYG LZE _ _ MN.
split; first exact: CS.
exists M, (kjb (rc rr)); do 3![split=> //]; split=> // j.
have [_ [_ [_ [_ [[ND RG] _]]]]] := MN.
have JB : t_jb m' = kjb (rc rr) by rewrite /m' /finalize RR.
have FA : Forall (fun i => (i < d_x d + d_bg d + d_hg d)%coq_nat) (t_jb m').
  by apply/Forall_forall => i; rewrite JB => /RG; rewrite Enx.
have PJ := C59_indices _ _ _ HC FA.
rewrite -[s_jb _]/(user_indices part d (t_jb m')) -JB; split.
- by move=> /(Permutation_in _ PJ) /filter_In [? /Nat.ltb_lt].
- by move=> [? /Nat.ltb_lt ?]; apply: (Permutation_in _ (Permutation_sym PJ)); apply/filter_In.
Qed.
Print Assumptions C75_success_partial.

(** ** C76.  An exact KKT point is recognised: when the Newton direction there is zero, solve
    takes one iteration, succeeds and leaves the point as it is - provided that the
    echelonizer finds a basic variable, and up to round-off ... *)
Definition starts_at (st : ustate xreal) (x xbg xhg p ye yg ze zg : list R) : Prop :=
  s_x st = List.map XF x /\ s_xbg st = List.map XF xbg /\ s_xhg st = List.map XF xhg /\ s_p st = List.map XF p /\
  s_ye st = List.map XF ye /\ s_yg st = List.map XF yg /\ s_ze st = List.map XF ze /\ s_zg st = List.map XF zg.

Theorem C76_kkt_accepted_partial : forall part E ech nonfinite newton check fuel o f1 f2 f3 oAx oAp obc (w0 : world E) hist m P M st
    tol x xbg xhg p ye yg ze zg,
  let d := p_dims P in let xbar := x ++ xbg ++ xhg in
  partition_contract part -> conforming P -> ordered_bounds P -> block_unspoiled f1 oAx d ->
  update_master f1 f2 f3 oAx oAp obc P = Some M -> ech_contract M ech ->
  (forall a wt, weights_at M xbar wt -> let q := (ech a (m_Wx M xbar p) (m_Wp M xbar p) wt).2 in
     qjb q <> nil /\ forall i, (i < length (qjb q))%coq_nat -> Rlt (row_room M xbar p (qR q) i) tol) ->
  state_sized d st -> length p = d_p d -> starts_at st x xbg xhg p ye yg ze zg ->
  user_kkt P x p ye yg ze zg -> slacks P x p xbg xhg ->
  (forall w, snd (newton w) = fin (repeat R0 (nxbar d)) (repeat R0 (d_p d)) (repeat R0 (ny d + nz d))) ->
  o_tol o = XF tol -> Rlt R0 tol -> (1 <= o_maxiters o)%coq_nat ->
  exists r st', u_solve part ech nonfinite newton None check (S fuel) o f1 f2 f3 oAx oAp obc w0 hist m P st = Some (r, st') /\
    r_succeeded r = true /\ r_iterations r = 1%N /\ starts_at st' x xbg xhg p ye yg ze zg.
Proof.
move=> part E ech nonfinite newton check fuel o f1 f2 f3 oAx oAp obc w0 hist m P M st tol x xbg xhg p ye yg ze zg d xbar.
move=> HC C O B U HE RO SS Lp [E1 [E2 [E3 [E4 [E5 [E6 [E7 E8]]]]]]] K SL HN TOL t0 MX.
have [Lx [Ly1 [Ly2 [Ly3 [Ly4 [Lg Lh]]]]]] := SS.
rewrite E1 E2 E3 E5 E6 E7 E8 !List.map_length in Lx Ly1 Ly2 Ly3 Ly4 Lg Lh.
pose w := ye ++ yg ++ ze ++ zg.
have MK : master_kkt M xbar p w.
  by apply/(C57_kkt_partial _ _ _ _ _ _ _ _ _ _ _ _ _ _ _ _ C U B Lx Lg Lh Ly1 Ly2 Ly3).
have G := good_bounds_of C O U; have [G1 [G2 [G3 G4]]] := G.
have EM : [/\ ms_nx M = nxbar d, ms_np M = d_p d, ms_ny M = ny d & ms_nz M = nz d] by rewrite (Meq _ _ _ _ _ _ _ _ U).
have [Enx Enp Eny Enz] := EM.
have LX : length xbar = ms_nx M by rewrite Enx /xbar !List.app_length Lx Lg Lh /nxbar; lia.
have LW : length w = (ny d + nz d)%coq_nat by rewrite /w !List.app_length Ly1 Ly2 Ly3 Ly4 /ny /nz; lia.
have [||||||||s [S [Us [w' Ws]]]] := @solve_stays (world E) (w_update part M ech nonfinite) (fun w _ => w_err w) newton check (m_bounds M) o xbar p w _ _ _ _ _ _ _ _ MX fuel w0 hist.
- by rewrite G1 LX.
- by rewrite -(Forall2_len _ _ _ G3) G1 LX.
- by rewrite G2 Enp Lp.
- by rewrite -(Forall2_len _ _ _ G4) G2 Enp Lp.
- by have [[_ [_ [_ [H _]]]] _] := MK.
- by have [[_ [_ [_ [_ H]]]] _] := MK.
- by move=> v; rewrite HN LX Enx Lp LW.
- move=> v; have [q [rr [[a [wt [WT Eq]]] HQ RU R1 ->]]] := w_update_fin nonfinite v xbar p w HC HE.
  have [J0 R0'] := RO a wt WT; rewrite -Eq in J0 R0'.
  have := kkt_small HC HQ RU t0 (or_introl J0) MK R0'.
  by rewrite TOL /= /rltb; case: Rlt_dec.
set r := Result _ _ _ in S.
have EU : UVec (t_x (to_master m st)) (t_p (to_master m st)) (t_w (to_master m st)) = fin xbar p w.
  by rewrite /to_master /= E1 E2 E3 E4 E5 E6 E7 E8 /fin /xbar /w !List.map_app.
exists r, (of_master part d (finalize (to_master m st) (s_w s) (s_u s)) st).
split; first by rewrite /u_solve U /m_solve EU S.
split=> //; split=> //.
have [H1 [H2 [H3 [H4 [H5 [H6 [H7 H8]]]]]]] := C59_roundtrip _ part d m st SS.
have [F1 F2 F3] : [/\ t_x (finalize (to_master m st) (s_w s) (s_u s)) = t_x (to_master m st),
  t_p (finalize (to_master m st) (s_w s) (s_u s)) = t_p (to_master m st) & t_w (finalize (to_master m st) (s_w s) (s_u s)) = t_w (to_master m st)].
  by rewrite Us -EU /finalize; case: w_res.
rewrite /starts_at -E1 -E2 -E3 -E4 -E5 -E6 -E7 -E8 -[X in _ = X /\ _]H1 -[X in _ /\ _ = X /\ _]H7 -[X in _ /\ _ /\ _ = X /\ _]H8.
by rewrite -H3 -H4 -H5 -H6 /of_master; cbn [s_x s_p s_xbg s_xhg s_ye s_yg s_ze s_zg]; rewrite F1 F2 F3.
Qed.
Print Assumptions C76_kkt_accepted_partial.

(** The problem of C57_case, min x subject to x >= 1 as a linear inequality constraint,
    -5 <= x, meets the hypotheses of C76 and the outcome those of C75. *)
Definition q57 : rwq RF := RWQ (fun _ _ => 1) (fun _ _ => 1) (fun _ _ => 1) (0%N :: nil) (1%N :: nil).
Definition mem7 : nat -> R := fun _ => IZR 7.
Definition old7 : mat R := Mat 0 0 mem7.
Definition st57 : ustate xreal := UState (p_dims P57) (XF R1 :: nil) nil nil (XF (IZR (-1)) :: nil) nil nil nil (XF R0 :: nil) nil nil nil nil nil nil nil.
Definition m0 : mstate xreal := MState nil nil nil nil nil nil nil nil nil nil.
Definition w57 : world unit := World tt q57 None XNaN.
Example C76_case : exists M r st',
  [/\ partition_contract libstdcxx_partition /\ conforming P57 /\ ordered_bounds P57, block_unspoiled mem7 old7 (p_dims P57),
      update_master mem7 mem7 mem7 old7 old7 old7 P57 = Some M, ech_contract M (fun (a : unit) _ _ _ => (a, q57)) &
      u_solve libstdcxx_partition (fun a _ _ _ => (a, q57)) (fun a _ => (a, XNaN)) (fun w => (w, fin (R0 :: R0 :: nil) nil (R0 :: nil))) None None 1
        (Options 5 (XF R1) false) mem7 mem7 mem7 old7 old7 old7 w57 nil m0 P57 st57 = Some (r, st') /\
      r_succeeded r = true /\ r_iterations r = 1%N /\ starts_at st' (R1 :: nil) (R0 :: nil) nil nil nil (IZR (-1) :: nil) nil nil].
Proof.
have LE a b : Rle a b -> rleb a b = true by move=> H; rewrite /rleb; case: Rle_dec.
have OB : ordered_bounds P57 by split=> //; split; repeat constructor.
have BU : block_unspoiled mem7 old7 (p_dims P57) by left.
have CF : conforming P57 by repeat split.
have [_ [_ [_ [_ [K _]]]]] := C57_case.
case U: (update_master mem7 mem7 mem7 old7 old7 old7 P57) => [M|//].
have EM : [/\ ms_nx M = 2%N, ms_np M = 0%N, ms_ny M = 1%N & ms_nz M = 0%N] by rewrite (Meq _ _ _ _ _ _ _ _ U).
have [E1 E2 E3 E4] := EM.
have A0 : mget (ms_Ax M) 0 0 = R1 by rewrite (Meq _ _ _ _ _ _ _ _ U).
have A1 : mget (ms_Ax M) 0 1 = R1 by rewrite (Meq _ _ _ _ _ _ _ _ U).
have HE : ech_contract M (fun (a : unit) _ _ _ => (a, q57)).
  move=> a x p wt ju; rewrite E1 E2 E3 E4 /=.
  have W0 : m_Wx M x p 0%N 0%N = 1 by rewrite /m_Wx E3 /= A0.
  have W1 : m_Wx M x p 0%N 1%N = 1 by rewrite /m_Wx E3 /= A1.
  split.
  - exact: Permutation_refl.
  - by case=> // -[] // _ _; rewrite big_ord_recl big_ord0 /= W0 mulr1 addr0.
  - by case=> // -[] // _ _; rewrite big_ord_recl big_ord0 /= W1 mulr1 addr0.
  - by [].
have HH := @C76_kkt_accepted_partial libstdcxx_partition unit (fun a _ _ _ => (a, q57)) (fun a _ => (a, XNaN)) (fun w => (w, fin (R0 :: R0 :: nil) nil (R0 :: nil))) None 0
        (Options 5 (XF R1) false) mem7 mem7 mem7 old7 old7 old7 w57 nil m0 P57 M st57 R1 (R1 :: nil) (R0 :: nil) nil nil nil (IZR (-1) :: nil) nil nil
        libstdcxx_contract CF OB BU U HE.
have [||||||||||r [st' H]] := HH.
- move=> a wt _; split=> //; case=> [_|i /= Hi]; last by lia.
  have CM : cmag M ((R1 :: nil) ++ (R0 :: nil) ++ nil) nil 0%N = IZR 2.
    by rewrite /cmag /ctarget E1 E2 E3 (Meq _ _ _ _ _ _ _ _ U) /= /cWx /= Rabs_R0 /at_ /= Rabs_R1; lra.
  have SU : Wrapper_spec.sum (ms_ny M + ms_nz M)%coq_nat (fun l => Rmult (Rabs (qR q57 0%N l)) (cmag M ((R1 :: nil) ++ (R0 :: nil) ++ nil) nil l)) = IZR 2.
    by rewrite E3 E4; cbn [Wrapper_spec.sum Nat.add]; rewrite CM Rabs_R1; lra.
  rewrite /row_room [Wrapper_spec.sum _ _]SU.
  have L : Rlt (pow 2 1) (pow 2 52) by apply: Rlt_pow; [lra | lia].
  rewrite pow_1 in L; move: (pow 2 52) L => t L.
  by apply: (Rmult_lt_reg_l t); [lra | rewrite -Rmult_assoc Rinv_r; lra].
- by [].
- by [].
- by repeat split.
- exact: K.
- split=> i /=; last by lia.
  case: i => [_|i Hi]; last by lia.
  by rewrite /Wrapper_spec.lin /at_ /=; lra.
- by [].
- by [].
- by lra.
- by rewrite /=; lia.
- by have HC := libstdcxx_contract; exists M, r, st'; split.
Qed.

(** ... but without constraints there is no basic variable, and then a variable on its bound
    is never recognised as optimal.  min x subject to 0 <= x <= 1: x = 0 is the solution and a
    KKT point, yet solve reports failure whatever the initial state, the options (with
    tolerance <= 1), the state of the solver, and even whatever the Newton directions and
    transformations; points with NaN are taken not to satisfy the tolerance. *)
Definition P76 : problem R xreal := Problem (Dims 1 0 0 0 0 0 0) None (Some fx1) (Some cfn0) (Some cfn0) (Some cfn0)
  mzeros mzeros mzeros mzeros nil nil (XF R0 :: nil) (XF R1 :: nil) nil nil nil mzeros mzeros.
Theorem C76_bounds_only_refuted : conforming P76 /\ ordered_bounds P76 /\ user_kkt P76 (R0 :: nil) nil nil nil nil nil /\
  forall part E ech nonfinite newton phi fuel o f1 f2 f3 oAx oAp obc (w0 : world E) hist m st r st' tol,
  partition_contract part -> (forall M, update_master f1 f2 f3 oAx oAp obc P76 = Some M -> ech_contract M ech) ->
  o_tol o = XF tol -> Rle tol R1 -> (forall a u, nltb (snd (nonfinite a u)) (XF tol) = false) ->
  u_solve part ech nonfinite newton phi None fuel o f1 f2 f3 oAx oAp obc w0 hist m P76 st = Some (r, st') ->
  r_succeeded r = false.
Proof.
have LE a b : Rle a b -> rleb a b = true by move=> H; rewrite /rleb; case: Rle_dec.
split; first by repeat split.
split; first by split=> //; split; repeat constructor; apply: LE; lra.
split.
  split; last first.
    split; last by split=> i /=; lia.
    case=> [|j] /=; last by lia.
    by move=> _; right; left; split=> //; lra.
  split; first by move=> i /=; lia.
  do 4![split; first by move=> i /=; lia].
  split; last by move=> i /=; lia.
  by case=> [|j] /= H; [split; apply: LE; rewrite /at_ /=; lra | lia].
move=> part E ech nonfinite newton phi fuel o f1 f2 f3 oAx oAp obc w0 hist m st r st' tol HC HE TOL t1 NF.
rewrite /u_solve; case U: update_master => [M|//].
case S: m_solve => [[r0 s]|//] [ER _]; rewrite {r0}ER in S.
apply/negP => OK.
have [[w' Ew] [Ee /(_ OK) CR]] := @C49_success_sound _ _ _ _ _ _ _ _ _ _ _ _ _ _ _ _ S.
case: CR => [|[c [//]]]; rewrite Ee Ew TOL /w_update.
have EM : [/\ ms_nx M = 1%N, ms_np M = 0%N, ms_ny M = 0%N & ms_nz M = 0%N] by rewrite (Meq _ _ _ _ _ _ _ _ U).
have [E1 E2 E3 E4] := EM.
case: (finite (ux (s_u s))) => [x|]; last by case N: (nonfinite _ _) => [a b] /=; have := NF (w_e w') (s_u s); rewrite N /= => ->.
case: (finite (up (s_u s))) => [p|]; last by case N: (nonfinite _ _) => [a b] /=; have := NF (w_e w') (s_u s); rewrite N /= => ->.
case: (finite (uw (s_u s))) => [y|]; last by case N: (nonfinite _ _) => [a b] /=; have := NF (w_e w') (s_u s); rewrite N /= => ->.
have := HE M U (w_e w') x p (rf_weight (m_data M x) (vec x)).
case: (ech _ _ _ _) => a q /= HQ.
case RU: rf_update => [rr|//] /=; rewrite /rltb; case: Rlt_dec => // lt _.
have J0 : qjb q = nil.
  have [_ H _ _] := HQ nil; case: (qjb q) H => // j l /(_ 0%N 0%N isT isT).
  by rewrite E3 E4 big_ord0 => /eqP; rewrite eq_sym oner_eq0.
have [EMr CV EE] := rf_update_view HC HQ RU.
have KB : kjb (rc rr) = nil by apply: Permutation_nil; rewrite -J0; apply: cv_basic CV.
have KU : kju (rc rr) = nil.
  case K: (kju (rc rr)) => [//|j l]; have : In j (kju (rc rr)) by rewrite K; left.
  by move/(cv_unstable CV); rewrite EMr /= /rf_stability J0 stability_empty_ju.
have G : o_fx (m_f M x p) 0%N = R1 by rewrite /m_f (Meq _ _ _ _ _ _ _ _ U).
have : (1 : RF) <= rerror rr; last by move/R_leP; rewrite -[GRing.one _]/R1; lra.
have n0 : (0 < ms_nx M)%N by rewrite E1.
pose v := @err_ex RF (Num_rf RF) (rv_ax (ms_ny M) (ms_nz M) (m_evals M x p) (rM rr) (rc rr) (MVec (vec x) (vec p) (vec y))) (vec x) (dxl (m_data M x)) (dxu (m_data M x)) nil nil.
have L1 : @norminf RF (Num_rf RF) (ms_nx M) v <= rerror rr.
  by rewrite EE /err_update /err_max !rf_max KB KU !le_maxr lexx.
apply: le_trans L1; apply: le_trans (norminf_le v n0).
rewrite /v /err_ex /= (ax_stable _ _ _ _ _ n0) ?KU //.
by rewrite /lagrangian E3 E4 big_ord0 /= G addr0 normrN normr_id normr1.
Qed.
Print Assumptions C76_bounds_only_refuted.
