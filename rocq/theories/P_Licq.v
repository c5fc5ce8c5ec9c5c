(** Property theorem C85: success at a point with independent active constraints. *)
From Coq Require Import List PeanoNat Permutation Reals Lra Lia.
From mathcomp Require Import all_ssreflect all_algebra.
From Verif Require Import Num Num_facts Index_model Index_spec Index_proofs Num_rf R_rf Echelon_model Echelon_spec LU_model Linear_model Linear_spec Canonical_model Canonical_spec.
From Verif Require Import ResErr_model Residual_model Residual_spec P_Residual EchelonO_model EchelonO_spec EchelonO_proofs EchelonOEx_proofs Basis_spec Pivot_spec Pivot_proofs.
From Verif Require Import Loop_model Loop_spec P_Loop Wrapper_model Wrapper_spec Wrapper_proofs P_Wrapper Near_proofs End_model End_spec Indep_proofs End_proofs P_End P_EchelonO Status_spec P_Status.
Set Implicit Arguments.
Unset Strict Implicit.
Unset Printing Implicit Defensive.
Import Order.TTheory GRing.Theory Num.Theory.
Local Open Scope ring_scope.
Local Notation "l ++ l'" := (List.app l l') : seq_scope.

(** As [raw_bottleneck], with the rows of the matrix: when the columns of weight at least t leave
    no nontrivial combination of the rows zero, the basic variables have weight at least t. *)
Lemma row_bottleneck (F : realFieldType) (nx np nw : nat) (M : mmat F) (q : rwq F) (w : rawvec F) (t : F) :
  echelon_form nx np nw M (qR q) (qSbn q) (qSbp q) (qjb q) (qjn q) ->
  (forall i j, (i < length (qjb q))%N -> (j < length (qjn q))%N -> qSbn q i j != 0 -> w (ix (qjn q) j) <= w (ix (qjb q) i)) ->
  (forall f : nat -> F, (forall j, (j < nx)%N -> t <= w j -> \sum_(l < nw) f l * mWx M l j = 0) -> forall l, (l < nw)%N -> f l = 0) ->
  forall i, (i < length (qjb q))%N -> t <= w (ix (qjb q) i).
Proof.
move=> [PQ E1 E2 _] XO IN i il.
case: (lerP t (w (ix (qjb q) i))) => // lt.
have r0 := IN (qR q i); have := E1 i i il il; rewrite eqxx => /eqP; rewrite big1 ?(eq_sym 0) ?oner_eq0 // => l _.
rewrite r0 ?mul0r // => j jn tw.
have : In j (qjb q ++ qjn q).
  by apply: (Permutation_in _ PQ); rewrite /indices; apply/in_seq; split; [exact: Nat.le_0_l | apply/ssrnat.ltP].
move/in_app_iff => [] /(In_nth _ _ 0%N) [k [/ssrnat.ltP kl Ek]]; move: tw; rewrite -Ek -/(ix _ k) => tw.
  rewrite E1 //; case: (altP (i =P k)) => // ik.
  by move: tw; rewrite -ik leNgt lt.
rewrite E2 //; case: (altP (qSbn q i k =P 0)) => // nz.
by move: (le_lt_trans (le_trans tw (XO i k il kl nz)) lt); rewrite ltxx.
Qed.

(** Threshold permitting, the basic variables of the object are off their bounds at such a point. *)
Lemma licq_basic lu srt th sigma f1 f2 f3 oAx oAp obc P M x xbg xhg p a wt : let d := p_dims P in
  lu_correct lu -> sort_correct srt -> 0 <= th -> conforming P -> update_master f1 f2 f3 oAx oAp obc P = Some M -> block_unspoiled f1 oAx d ->
  length x = d_x d -> length xbg = d_bg d -> length xhg = d_hg d -> licq P x xbg xhg p ->
  let X := x ++ xbg ++ xhg in well_pivoted th M X p -> weights_at M X wt ->
  forall j, In j (qjb (the_ech lu srt th sigma M a (m_Wx M X p) (m_Wp M X p) wt).2) ->
    ~ at_bound (at_ X j) (bd (ms_xlower M) j) (bd (ms_xupper M) j).
Proof.
move=> d LC SC th0 C U B L1 L2 L3 LI X [RA RW] WT j; set q := (the_ech _ _ _ _ _ _ _ _ _).2 => /(In_nth _ _ 0%N) [i [/ssrnat.ltP il <-]].
have EM : [/\ ms_nx M = nxbar d, ms_ny M = ny d & ms_nz M = nz d] by rewrite (Meq _ _ _ _ _ _ _ _ U).
have [Enx Eny Enz] := EM.
have [EF _ _ _] := @C82_echelonizer RF lu srt th sigma (ms_ny M) (ms_nx M) (ms_nz M) (ms_np M) (fun i j => mget (ms_Ax M) i j) a (m_Wx M X p) (m_Wp M X p) wt
  (rf_master (m_evals M X p) (m_Wx M X p) (m_Wp M X p) nil) LC SC th0 (@top_rows M X p) (erefl _) (erefl _).
have XO := @view_resolved RF lu srt th sigma LC SC th0 (ms_ny M) (ms_nx M) (ms_nz M) (ms_np M) (fun i j => mget (ms_Ax M) i j) a (m_Wx M X p) (m_Wp M X p) wt (@top_rows M X p) RA RW.
have jn : (ix (qjb q) i < ms_nx M)%coq_nat.
  have [PQ _ _ _] := EF.
  have : In (ix (qjb q) i) (indices (ms_nx M)).
    by apply: (Permutation_in _ (Permutation_sym PQ)); apply/in_app_iff; left; apply: nth_In; apply/ssrnat.ltP.
  by move/in_seq => [_].
have : (0 : RF) <= wt (ix (qjb q) i).
  apply: (row_bottleneck EF XO _ il) => f Hf l ll.
  apply: (master_licq _ _ _ _ _ _ _ _ U (unspoiled_block _ _ _ B) _ _ _ _ L1 L2 L3 C LI f); last by apply/ssrnat.ltP; rewrite -Eny -Enz.
  move=> k kn NB; have kn' : (k < ms_nx M)%N by rewrite Enx; apply/ssrnat.ltP.
  have [_ /(_ NB) Wk] := WT k (elimT ssrnat.ltP kn').
  rewrite -[RHS](Hf k kn'); last by rewrite Wk; apply/R_leP; exact: Rabs_pos.
  rewrite /= (sum_big (ms_ny M + ms_nz M) (fun l => Rmult (f l) (m_Wx M X p l k))) Eny Enz.
  by apply: sum_ext => i' _; rewrite -Wx_spec.
move=> W0 AB; have [/(_ AB) W1 _] := WT _ jn.
by move: W0; rewrite W1 => /R_leP; rewrite -[GRing.zero _]/R0; lra.
Qed.

(** ** C85.  If Solver::solve reports success and the active constraints (bounds, equality constraints, inequality
    constraints without slack) have independent gradients at the returned point, that point is a KKT
    point up to the tolerance: every variable has a derivative of the
    Lagrange function below the tolerance or of the right sign for the bound it is on, every multiplier of an
    inequality constraint has the right sign or is below the tolerance, and the constraints hold up to [allowed].  As C75 and
    C83 without the exceptions for basic variables.  Missing: constraints that depend on a variable more weakly
    than the threshold of the echelonizer can tell (C85_weak_refuted); user checks of convergence. *)
Theorem C85_success_partial : forall part lu srt th sigma nonfinite newton phi fuel o f1 f2 f3 oAx oAp obc w0 hist m P M st r st'
    tol x xbg xhg p ye yg ze zg,
  let d := p_dims P in
  partition_contract part -> lu_correct lu -> sort_correct srt -> 0 <= th ->
  conforming P -> ordered_bounds P -> block_unspoiled f1 oAx d -> update_master f1 f2 f3 oAx oAp obc P = Some M ->
  state_sized d st -> length (s_p st) = d_p d ->
  (forall w, sized (nxbar d) (d_p d) (ny d + nz d) (snd (newton w))) ->
  (forall ph w xo x, phi = Some ph -> length x = nxbar d -> length (snd (ph w xo x)) = nxbar d) ->
  o_tol o = XF tol ->
  u_solve part (the_ech lu srt th sigma M) nonfinite newton phi None fuel o f1 f2 f3 oAx oAp obc w0 hist m P st = Some (r, st') ->
  r_succeeded r = true -> starts_at st' x xbg xhg p ye yg ze zg -> licq P x xbg xhg p -> well_pivoted th M (x ++ xbg ++ xhg) p ->
  user_near P tol nil x xbg xhg p ye yg ze zg /\
  exists jb V, inverts M (x ++ xbg ++ xhg) p jb V /\ (forall j, In j jb -> ~ at_bound (at_ (x ++ xbg ++ xhg) j) (bd (ms_xlower M) j) (bd (ms_xupper M) j)) /\
    user_constraints_near P (allowed M (x ++ xbg ++ xhg) p tol jb V) x xbg xhg p.
Proof.
move=> part lu srt th sigma nonfinite newton phi fuel o f1 f2 f3 oAx oAp obc w0 hist m P M st r st' tol x xbg xhg p ye yg ze zg d.
move=> HC LC SC th0 C O B U SS Lp HN HP TOL S OK [E1 [E3 [E4 [E2 [E5 [E6 [E7 E8]]]]]]] LI WP.
have HE M' : update_master f1 f2 f3 oAx oAp obc P = Some M' -> ech_contract M' (the_ech lu srt th sigma M).
  by rewrite U => -[<-]; exact: C83_contract.
have [SS' [M' [jb [U' [[a [wt [WT PM]]] [UN [_ UC]]]]]]] := C75_success_partial HC C O B HE SS Lp HN HP TOL S OK E1 E2 E3 E4 E5 E6 E7 E8.
have EMM : M' = M by move: U'; rewrite U => -[].
move: PM UC WT; rewrite EMM => PM UC WT.
have [LX [_ [_ [_ [_ [LG LH]]]]]] := SS'.
rewrite E1 E3 E4 !List.map_length in LX LG LH.
have IE := licq_independent _ _ _ _ _ LI.
have NB j : In j jb -> ~ at_bound (at_ (x ++ xbg ++ xhg) j) (bd (ms_xlower M) j) (bd (ms_xupper M) j).
  move=> /(Permutation_in _ (Permutation_sym PM)); exact: (licq_basic LC SC th0 C U B LX LG LH LI WP WT).
have [|V [V1 V2]] := UC.
  by rewrite -(Permutation_length PM); exact: (the_ech_full _ _ _ LC SC th0 U B).
split; last by exists jb, V.
have [N1 [N2 [N3 [N4 [N5 N6]]]]] := UN.
split=> //; split=> //; split; last split; last split.
- move=> j jl; case: (N3 j jl) => [H|[J1 J2]]; [by left | exfalso; apply: (NB j J1)].
  have [-> ->] := bd_x _ _ _ _ _ _ _ _ C U _ jl; by rewrite (xbar_x P x xbg xhg LX).
- move=> i il; have [H1 H2] := N4 i il; split=> //; case: H2 => [H|[H3 [H4|H4]]]; [by left | by right; split; [|left] | exfalso; apply: (NB _ H4)].
  have [|-> ->] := bd_slack _ _ _ _ _ _ _ _ C U i; first by move: il; rewrite -/d -?plusE; lia.
  by rewrite (xbar_bg P x xbg xhg LX LG) // H3; right.
- move=> i il; have [H1 H2] := N5 i il; split=> //; case: H2 => [H|[H3 [H4|H4]]]; [by left | by right; split; [|left] | exfalso; apply: (NB _ H4)].
  have [|] := bd_slack _ _ _ _ _ _ _ _ C U (d_bg d + i)%coq_nat; first by move: il; rewrite -/d -?plusE; lia.
  rewrite -/d Nat.add_assoc => -> ->.
  by rewrite (xbar_hg P x xbg xhg LX LG) H3; right.
- exact: N6.
Qed.
Print Assumptions C85_success_partial.

(** min x subject to x = 1, -5 <= x, from its solution (C83_case) *)
Example C85_case : licq P83 (R1 :: nil) nil nil nil /\ exists lu srt M r st',
  [/\ lu_correct lu /\ sort_correct srt, conforming P83 /\ ordered_bounds P83, update_master mem7 mem7 mem7 old7 old7 old7 P83 = Some M,
      starts_at st' (R1 :: nil) nil nil nil (IZR (-1) :: nil) nil nil nil /\ well_pivoted code_threshold M (R1 :: nil) nil &
      u_solve libstdcxx_partition (the_ech lu srt code_threshold 0 M) (fun a _ => (a, XNaN)) (fun w => (w, fin (R0 :: nil) nil (R0 :: nil))) None None 1
        (Options 5 (XF R1) false) mem7 mem7 mem7 old7 old7 old7 w83 nil m0 P83 st83 = Some (r, st') /\ r_succeeded r = true].
Proof.
split; last by have [lu [srt [M [r [st' [H1 H2 H3 _ [H4 [H5 [_ H6]]]]]]]]] := C83_case; exists lu, srt, M, r, st'; split=> //; split=> //;
  apply: well_pivoted_row; [exact: (proj2 code_threshold_range) | by rewrite (Meq _ _ _ _ _ _ _ _ H3) |
    rewrite (Meq _ _ _ _ _ _ _ _ H3) /m_Wx; case=> [|j] H; [by right; exact: Rabs_R1 | by move: H => /ssrnat.ltP]].
move=> a b c e _ _ /(_ 0%N) /= H; split; last by split=> [|]; [|split] => i /=; lia.
case=> [_|i /=]; last by lia.
have := H ltac:(lia); rewrite /at_bound /bd /at_ /= => H0.
have : ~ (XF (IZR (-5)) = XF R1 \/ XPInf = XF R1) by case=> // -[]; lra.
by move/H0; lra.
Qed.
