(** Property theorems C110: what the calculation depends on. *)
From Coq Require Import List PeanoNat Reals FunctionalExtensionality Lra Lia.
From mathcomp Require Import all_ssreflect all_algebra.
From Verif Require Import Num Num_facts Index_model Index_spec Num_rf R_rf LU_model Linear_model Canonical_model ResErr_model Residual_model Sens_model.
From Verif Require Import Loop_model Loop_spec Loop_proofs P_Loop Wrapper_model Wrapper_spec Wrapper_proofs P_Wrapper End_model End_spec P_End SensW_model DependsOn_spec DependsOn_proofs.
Set Implicit Arguments.
Unset Strict Implicit.
Unset Printing Implicit Defensive.

(** ** Any number system: what the function evaluations give at other points than those evaluated does not matter. *)
Theorem C110_evaluated_any : forall (T : Type) (N : Num T) (W : Type) fupdate fupdate' ferror newton phi check
    (B : bounds T) o fuel (w : W) hist u r s,
  solve W fupdate ferror newton phi check fuel B o w hist u = Some (r, s) ->
  (forall v w, In v (s_evals s) -> fupdate' w v = fupdate w v) ->
  solve W fupdate' ferror newton phi check fuel B o w hist u = Some (r, s).
Proof. by move=> T N W fup fup' fe nw ph ck B o fuel w hist u r s; apply: solve_local. Qed.
Print Assumptions C110_evaluated_any.

Lemma ext1 (f g : nat -> R) : (forall i, f i = g i) -> f = g.
Proof. exact: functional_extensionality. Qed.
Lemma ext2 (f g : nat -> nat -> R) : (forall i j, f i j = g i j) -> f = g.
Proof. by move=> H; apply: functional_extensionality => i; apply: functional_extensionality => j. Qed.

Lemma cput_same (r r' v v' : cres R) r0 nr nx : same_c r r' -> same_c v v' -> same_c (cput r r0 nr nx v) (cput r' r0 nr nx v').
Proof.
move=> A B i j; have [A1 [A2 A3]] := A i j; have [B1 [B2 B3]] := B (i - r0)%coq_nat j; cbn [cput c_val c_ddx c_ddp].
by rewrite A1 A2 A3 B1 B2 B3.
Qed.
Lemma cput_dc (r r' v v' : cres R) r0 nr nx : (forall i k, c_ddc r' i k = c_ddc r i k) -> (forall i k, c_ddc v' i k = c_ddc v i k) ->
  forall i k, c_ddc (cput r' r0 nr nx v') i k = c_ddc (cput r r0 nr nx v) i k.
Proof. by move=> A B i k; cbn [cput c_ddc]; rewrite A B. Qed.
Lemma same_c_refl (r : cres R) : same_c r r. Proof. by []. Qed.
Lemma master_h_same d (he he' hg hg' : cfun R) X p c res :
  same_c (value he (head (d_x d) X) p c) (value he' (head (d_x d) X) p c) ->
  same_c (value hg (head (d_x d) X) p c) (value hg' (head (d_x d) X) p c) ->
  same_c (master_h d he hg X p c res) (master_h d he' hg' X p c res).
Proof.
move=> A B; rewrite /master_h; cbv zeta; set r4 := cfill _ _ _ _ _ midentity; rewrite /ccall.
have H := cput_same (nz d - d_hg d)%coq_nat (d_hg d) (d_x d) (cput_same 0 (d_he d) (d_x d) (same_c_refl r4) A) B.
move=> i j; have [H1 [H2 H3]] := H i j; rewrite /value in H1 H2 H3; cbn [c_val c_ddx c_ddp]; rewrite H1 H2 H3.
by [].
Qed.
Lemma master_h_dc d (he he' hg hg' : cfun R) X p c res :
  (forall i k, c_ddc (value he' (head (d_x d) X) p c) i k = c_ddc (value he (head (d_x d) X) p c) i k) ->
  (forall i k, c_ddc (value hg' (head (d_x d) X) p c) i k = c_ddc (value hg (head (d_x d) X) p c) i k) ->
  forall i k, c_ddc (master_h d he' hg' X p c res) i k = c_ddc (master_h d he hg X p c res) i k.
Proof.
move=> A B i k; rewrite /master_h; cbv zeta; set r4 := cfill _ _ _ _ _ midentity; rewrite /ccall; cbn [c_ddc].
apply: cput_dc => //; exact: cput_dc.
Qed.

(** the master problem of P with other functions *)
Section Exchange.
Variables (P P' : problem R xreal) (f1 f2 f3 : nat -> R) (oAx oAp obc : mat R) (M M' : master R xreal).
Hypothesis U : update_master f1 f2 f3 oAx oAp obc P = Some M.
Hypothesis U' : update_master f1 f2 f3 oAx oAp obc P' = Some M'.
Variables (r : option (list R -> list R -> list R -> unit)) (f : ofun R) (he hg v : cfun R) (bec bgc : nat -> nat -> R).
Hypothesis D : forall f1 f2 f3 oAx oAp obc M', update_master f1 f2 f3 oAx oAp obc P' = Some M' ->
  update_master f1 f2 f3 oAx oAp obc (exchange P r f he hg v bec bgc) = Some M'.

Let d := p_dims P.
Lemma exM : M' = Master (ms_nx M) (ms_np M) (ms_ny M) (ms_nz M) r (master_f d f) (master_h d he hg) (master_v d v)
  (ms_Ax M) (ms_Ap M) (ms_b M) (ms_xlower M) (ms_xupper M) (ms_plower M) (ms_pupper M) (ms_c M) (master_bc f3 obc d bec bgc).
Proof. by rewrite (Meq _ _ _ _ _ _ _ _ (D U')) (Meq _ _ _ _ _ _ _ _ U). Qed.

Section Point.
Variables (X p : list R).
Let x := head (d_x d) X.
Hypothesis S : same_at P f he hg v x p.

Lemma ms_cE : ms_c M = p_c P. Proof. by rewrite (Meq _ _ _ _ _ _ _ _ U). Qed.
Lemma ms_fE : ms_f M = master_f d (uf P). Proof. by rewrite (Meq _ _ _ _ _ _ _ _ U). Qed.
Lemma ms_hE : ms_h M = master_h d (uhe P) (uhg P). Proof. by rewrite (Meq _ _ _ _ _ _ _ _ U). Qed.
Lemma ms_vE : ms_v M = master_v d (uv P). Proof. by rewrite (Meq _ _ _ _ _ _ _ _ U). Qed.
Lemma ms_fE' : ms_f M' = master_f d f. Proof. by rewrite exM. Qed.
Lemma ms_hE' : ms_h M' = master_h d he hg. Proof. by rewrite exM. Qed.
Lemma ms_vE' : ms_v M' = master_v d v. Proof. by rewrite exM. Qed.
Lemma ms_cE' : ms_c M' = p_c P. Proof. by rewrite exM -ms_cE. Qed.

Lemma f_same : [/\ o_fx (m_f M' X p) = o_fx (m_f M X p), o_fxx (m_f M' X p) = o_fxx (m_f M X p) & o_fxp (m_f M' X p) = o_fxp (m_f M X p)].
Proof.
rewrite /m_f /ocall ms_fE ms_fE' ms_cE ms_cE' /master_f /ocall -/x; cbn [o_fx o_fxx o_fxp].
have [A _] := S; rewrite /ovalue in A.
split; [apply: ext1 => i|apply: ext2 => i j|apply: ext2 => i j].
- by have [-> _] := A i 0%N.
- by have [_ [-> _]] := A i j.
- by have [_ [_ ->]] := A i j.
Qed.
Lemma h_same : [/\ c_val (m_h M' X p) = c_val (m_h M X p), c_ddx (m_h M' X p) = c_ddx (m_h M X p) & c_ddp (m_h M' X p) = c_ddp (m_h M X p)].
Proof.
rewrite /m_h /ccall ms_hE ms_hE' ms_cE ms_cE'.
have [_ [A [B _]]] := S; have H := master_h_same (@Wrapper_model.czero R Num_R) A B.
split; [apply: ext1 => i|apply: ext2 => i j|apply: ext2 => i j].
- by have [-> _] := H i 0%N.
- by have [_ [-> _]] := H i j.
- by have [_ [_ ->]] := H i j.
Qed.
Lemma v_same : [/\ c_val (m_v M' X p) = c_val (m_v M X p), c_ddx (m_v M' X p) = c_ddx (m_v M X p) & c_ddp (m_v M' X p) = c_ddp (m_v M X p)].
Proof.
rewrite /m_v /ccall ms_vE ms_vE' ms_cE ms_cE' /master_v /ccall /cput /cfill -/x; cbn [c_val c_ddx c_ddp].
have [_ [_ [_ A]]] := S; rewrite /value in A.
split; [apply: ext1 => i|apply: ext2 => i j|apply: ext2 => i j].
- by have [-> _] := A (i - 0)%coq_nat 0%N.
- by have [_ [-> _]] := A (i - 0)%coq_nat j.
- by have [_ [_ ->]] := A (i - 0)%coq_nat j.
Qed.

Lemma evals_same : m_evals M' X p = m_evals M X p.
Proof. by rewrite /m_evals; have [-> -> ->] := f_same; have [-> _ _] := h_same; have [-> -> ->] := v_same. Qed.
Lemma Wx_same : m_Wx M' X p = m_Wx M X p.
Proof. by rewrite /m_Wx; have [_ -> _] := h_same; rewrite exM. Qed.
Lemma Wp_same : m_Wp M' X p = m_Wp M X p.
Proof. by rewrite /m_Wp; have [_ _ ->] := h_same; rewrite exM. Qed.

Hypothesis C : same_dc P f he hg v x p.
Hypothesis Eb : bec = p_bec P /\ bgc = p_bgc P.
Lemma cderivs_same k : m_cderivs M' X p k = m_cderivs M X p k.
Proof.
rewrite /m_cderivs; congr CDerivs.
- apply: ext1 => i; rewrite /m_f /ocall ms_fE ms_fE' ms_cE ms_cE' /master_f /ocall -/x; cbn [o_fxc].
  by have [A _] := C i k; rewrite /ovalue in A; rewrite A.
- apply: ext1 => i; rewrite /m_v /ccall ms_vE ms_vE' ms_cE ms_cE' /master_v /ccall /cput /cfill -/x; cbn [c_ddc].
  by have [_ [_ [_ A]]] := C (i - 0)%coq_nat k; rewrite /value in A; rewrite A.
- by apply: ext1 => i; rewrite exM; cbn [ms_bc]; rewrite (Meq _ _ _ _ _ _ _ _ U); cbn [ms_bc]; case: Eb => -> ->.
- apply: ext1 => i; rewrite /m_h /ccall ms_hE ms_hE' ms_cE ms_cE'; apply: master_h_dc => l q.
  + by have [_ [A _]] := C l q.
  + by have [_ [_ [A _]]] := C l q.
Qed.
End Point.

Variables (part : partition_impl) (E : Type) (ech : E -> rawmx RF -> rawmx RF -> rawvec RF -> E * rwq RF) (nonfinite : E -> uvec xreal -> E * xreal).
Lemma m_data_same x : m_data M' x = m_data M x.
Proof. by rewrite exM. Qed.
Lemma w_update_same (w : world E) u :
  (forall x p, finite (ux u) = Some x -> finite (up u) = Some p -> same_at P f he hg v (head (d_x d) x) p) ->
  w_update part M' ech nonfinite w u = w_update part M ech nonfinite w u.
Proof.
move=> H; rewrite /w_update.
case Ex: (finite (ux u)) => [x|//]; case Ep: (finite (up u)) => [p|//]; case: (finite (uw u)) => [y|//].
have S := H x p Ex Ep; rewrite m_data_same (Wx_same S) (Wp_same S) (evals_same S).
have [-> -> -> ->] : [/\ ms_nx M' = ms_nx M, ms_np M' = ms_np M, ms_ny M' = ms_ny M & ms_nz M' = ms_nz M] by rewrite exM.
by [].
Qed.
Lemma m_bounds_same : m_bounds M' = m_bounds M.
Proof. by rewrite exM. Qed.
Lemma m_solve_same newton phi check fuel o w hist u res s :
  m_solve part M ech nonfinite newton phi check fuel o w hist u = Some (res, s) ->
  (forall u x p, In u (s_evals s) -> finite (ux u) = Some x -> finite (up u) = Some p -> same_at P f he hg v (head (d_x d) x) p) ->
  m_solve part M' ech nonfinite newton phi check fuel o w hist u = Some (res, s).
Proof.
rewrite /m_solve m_bounds_same => H A; apply: C110_evaluated_any H _ => u1 w1 I.
by apply: w_update_same => x p; apply: A.
Qed.

Lemma m_sens_same lu eps r0 s0 rr X p : same_dc P f he hg v (head (d_x d) X) p -> bec = p_bec P /\ bgc = p_bgc P ->
  m_sens M' lu eps r0 s0 rr X p = m_sens M lu eps r0 s0 rr X p.
Proof.
move=> C Eb; rewrite /m_sens.
have [-> [-> [-> [-> ->]]]] : m_nc M' = m_nc M /\ ms_nx M' = ms_nx M /\ ms_np M' = ms_np M /\ ms_ny M' = ms_ny M /\ ms_nz M' = ms_nz M.
  by rewrite exM /m_nc.
suff -> : m_column M' lu eps r0 s0 rr X p = m_column M lu eps r0 s0 rr X p by [].
apply: functional_extensionality => k; rewrite /m_column (cderivs_same C Eb).
by have [-> [-> ->]] : ms_np M' = ms_np M /\ ms_ny M' = ms_ny M /\ ms_nz M' = ms_nz M by rewrite exM.
Qed.
Lemma bc_ok_same : bec = p_bec P /\ bgc = p_bgc P -> bc_ok M' = bc_ok M.
Proof.
move=> [E1 E2].
have B1 : ms_bc M' = ms_bc M by rewrite exM; cbn [ms_bc]; rewrite E1 E2 (Meq _ _ _ _ _ _ _ _ U).
have [B2 B3] : ms_c M' = ms_c M /\ ms_ny M' = ms_ny M by rewrite exM.
by rewrite /bc_ok /m_nc B1 B2 B3.
Qed.
End Exchange.

(** ** C110.  Without a transformation function: whatever the functions return outside the bounds, whatever the value of the objective function is, and
    whatever the derivatives with respect to c are, the Result and the State are the same. *)
Lemma evals_iterates : forall (T : Type) (N : Num T) (W : Type) fupdate ferror newton check (B : bounds T) o fuel (w : W) hist u r s,
  solve W fupdate ferror newton None check fuel B o w hist u = Some (r, s) -> s_evals s = s_iterates s.
Proof.
move=> T N W fup fe nw ck B o fuel w hist u r s; rewrite /solve; case E: loop => [s1|//] [_ <-].
have : s_evals (initialize W fup fe B w hist u) = s_iterates (initialize W fup fe B w hist u) by [].
move: (initialize _ _ _ _ _ _ _) E; elim: fuel => [|fuel IH] s0 //; cbn [loop].
have ST : s_evals s0 = s_iterates s0 -> s_evals (step W fup fe nw None B o s0) = s_iterates (step W fup fe nw None B o s0).
  rewrite /step /newton_apply; case: (nw _) => w1 du; cbn [transform with_u update s_evals s_iterates s_u] => -> //.
have S1 : s_evals (stepping W ck o (step W fup fe nw None B o s0)).1 = s_evals (step W fup fe nw None B o s0) by rewrite /stepping; case: Nat.ltb.
have S2 : s_iterates (stepping W ck o (step W fup fe nw None B o s0)).1 = s_iterates (step W fup fe nw None B o s0) by rewrite /stepping; case: Nat.ltb.
case: (stepping _ _ _ _) S1 S2 => s2 c; cbn [fst] => S1 S2.
case: c => [E H|[<-] H]; last by rewrite S1 S2 ST.
by apply: IH E _; rewrite S1 S2 ST.
Qed.

Lemma exchange_master P r f he hg v bec bgc f1 f2 f3 oAx oAp obc M : update_master f1 f2 f3 oAx oAp obc P = Some M ->
  exists M', update_master f1 f2 f3 oAx oAp obc (exchange P r f he hg v bec bgc) = Some M'.
Proof.
move=> _; rewrite /update_master; cbn [p_dims p_f p_he p_hg p_v exchange initialized negb]; rewrite !Bool.andb_false_r.
by eexists.
Qed.

Lemma finite_nth l v i : finite l = Some v -> (i < length v)%coq_nat -> List.nth i l XNaN = XF (at_ v i).
Proof.
elim: l v i => [|[a| | |] l IH] v i //=; first by case=> <- /=; lia.
case E: (finite l) => [v'|//] [<-]; case: i => [|i] //= H; apply: IH => //; lia.
Qed.
Lemma finite_len l v : finite l = Some v -> length v = length l.
Proof.
elim: l v => [|[a| | |] l IH] v //=; first by case=> <-.
by case E: (finite l) => [v'|//] [<-] /=; rewrite (IH _ E).
Qed.
Lemma nth_any (A : Type) (l : list A) (i : nat) (a b : A) : (i < length l)%coq_nat -> List.nth i l a = List.nth i l b.
Proof. exact: List.nth_indep. Qed.

Lemma nth_first (A : Type) (l : list A) (i n : nat) (a : A) : (i < n)%coq_nat -> List.nth i (List.firstn n l) a = List.nth i l a.
Proof. by elim: l i n => [|b l IH] [|i] [|n] //= H; try lia; apply: IH; lia. Qed.

Lemma within_of lo hi (u : list xreal) x n : Loop_spec.within lo u hi -> finite u = Some x -> (n <= length u)%coq_nat ->
  (n <= length lo)%coq_nat -> (n <= length hi)%coq_nat ->
  Wrapper_spec.within (head n lo) (head n hi) (head n x).
Proof.
move=> Wn F Ln Ll Lh i; rewrite /head List.firstn_length (finite_len F) => Hi.
have Hn : (i < n)%coq_nat by lia.
have [|N|[A B]] := Wn i; first by lia.
  move: N; rewrite (@nth_any _ u i _ XNaN); last by lia.
  by rewrite (finite_nth F) // (finite_len F); lia.
have E : at_ (List.firstn n x) i = at_ x i by rewrite /at_ nth_first.
move: A B; rewrite (@nth_any _ u i _ XNaN); last lia; rewrite (finite_nth F); last by rewrite (finite_len F); lia.
rewrite (@nth_any _ lo i _ XNaN); last lia; rewrite (@nth_any _ hi i _ XNaN); last lia.
by move=> A B; rewrite /bd E !nth_first.
Qed.

Section Main.
Variables (part : partition_impl) (E : Type) (ech : E -> rawmx RF -> rawmx RF -> rawvec RF -> E * rwq RF) (nonfinite : E -> uvec xreal -> E * xreal).
Variables (newton : world E -> world E * uvec xreal) (check : option (world E -> uvec xreal -> uvec xreal -> xreal -> nat -> bool)).
Variables (fuel : nat) (o : options xreal) (f1 f2 f3 : nat -> R) (oAx oAp obc : mat R) (w : world E) (hist : list xreal) (m : mstate xreal).
Variables (P : problem R xreal) (st : ustate xreal).
Hypothesis CF : conforming P.
Hypothesis OB : ordered_bounds P.
Hypothesis SZ : state_sized (p_dims P) st.
Hypothesis SP : length (s_p st) = d_p (p_dims P).
Hypothesis NS : forall w, sized (nxbar (p_dims P)) (d_p (p_dims P)) (ny (p_dims P) + nz (p_dims P)) (snd (newton w)).
Variables (M : master R xreal) (res : result xreal) (s : state xreal (world E)).
Hypothesis U : update_master f1 f2 f3 oAx oAp obc P = Some M.
Hypothesis RUN : m_solve part M ech nonfinite newton None check fuel o w hist
  (UVec (t_x (to_master m st)) (t_p (to_master m st)) (t_w (to_master m st))) = Some (res, s).

Lemma evals_in_bounds u x p : In u (s_evals s) -> finite (ux u) = Some x -> finite (up u) = Some p -> in_bounds P (head (d_x (p_dims P)) x) p.
Proof.
move=> I Fx Fp; have G := good_bounds_of CF OB U.
have [C1 [C2 [C3 C4]]] := CF; have [O1 [O2 O3]] := OB; have [Z1 [Z2 [Z3 [Z4 [Z5 [Z6 Z7]]]]]] := SZ.
have [D1 [D2 [D3 D4]]] : ms_nx M = nxbar (p_dims P) /\ ms_np M = d_p (p_dims P) /\ ms_xlower M = master_xlower (p_dims P) (p_xlower P) /\
  ms_xupper M = master_xupper (p_dims P) (p_xupper P) by rewrite (Meq _ _ _ _ _ _ _ _ U).
have [D5 D6] : ms_plower M = p_plower P /\ ms_pupper M = p_pupper P by rewrite (Meq _ _ _ _ _ _ _ _ U).
have IB := @C69_evaluations_partial _ _ NumTot_xreal _ _ _ _ _ _ _ _ _ _ _ _ _ _ _ G RUN.
have SS : List.Forall (sized (nxbar (p_dims P)) (d_p (p_dims P)) (ny (p_dims P) + nz (p_dims P))) (s_evals s).
  rewrite (evals_iterates RUN).
  apply: (@C47_sizes _ _ _ _ _ _ _ _ _ _ _ (m_bounds M) _ _ _ _ _ _ _ _ _ NS _ RUN) => //; first by rewrite -D1 -D2.
  rewrite /sized -plusE /=; rewrite !List.app_length /nxbar /ny /nz; repeat split; lia.
move: IB SS; rewrite !List.Forall_forall => IB SS.
have [B1 B2] := IB u I; have [S1 [S2 S3]] := SS u I.
rewrite /m_bounds D3 D4 D5 D6 in B1 B2; cbn [xlo xhi plo phi_] in B1, B2.
have L2 : length (p_pupper P) = d_p (p_dims P) by rewrite -O1; elim: O3 => // ? ? ? ? _ _ /= ->.
have LX : length (head (d_x (p_dims P)) x) = d_x (p_dims P).
  by rewrite /head List.firstn_length (finite_len Fx) S1 /nxbar; lia.
have LP : length p = d_p (p_dims P) by rewrite (finite_len Fp).
rewrite /in_bounds LX LP; do 2 split => //; split.
- have K (l l' : list xreal) : length l = d_x (p_dims P) -> List.firstn (d_x (p_dims P)) (List.app l l') = l.
    by move=> <-; rewrite List.firstn_app Nat.sub_diag List.firstn_O List.app_nil_r List.firstn_all.
  have := within_of (n := d_x (p_dims P)) B1 Fx; rewrite /master_xlower /master_xupper !List.app_length /head (K _ _ C3) (K _ _ C4).
  by apply; rewrite ?S1 ?C3 ?C4 /nxbar; lia.
- have K (A : Type) (l : list A) : length l = d_p (p_dims P) -> List.firstn (d_p (p_dims P)) l = l by move=> <-; rewrite List.firstn_all.
  have := within_of (n := d_p (p_dims P)) B2 Fp; rewrite /head (K _ _ O1) (K _ _ L2) (K _ _ LP).
  by apply; lia.
Qed.
End Main.

Theorem C110_bounds : forall part E ech nonfinite newton check fuel o f1 f2 f3 oAx oAp obc (w : world E) hist m (P : problem R xreal) st r st'
    ru f he hg v bec bgc, let d := p_dims P in
  conforming P -> ordered_bounds P -> state_sized d st -> length (s_p st) = d_p d ->
  (forall w, sized (nxbar d) (d_p d) (ny d + nz d) (snd (newton w))) ->
  (forall x p, in_bounds P x p -> same_at P f he hg v x p) ->
  u_solve part ech nonfinite newton None check fuel o f1 f2 f3 oAx oAp obc w hist m P st = Some (r, st') ->
  u_solve part ech nonfinite newton None check fuel o f1 f2 f3 oAx oAp obc w hist m (exchange P ru f he hg v bec bgc) st = Some (r, st').
Proof.
move=> part E ech nonfinite newton check fuel o f1 f2 f3 oAx oAp obc w hist m P st r st' ru f he hg v bec bgc d CF OB SZ SP NS SM; rewrite /u_solve.
case U: (update_master f1 f2 f3 oAx oAp obc P) => [M|//].
have [M' U'] := exchange_master ru f he hg v bec bgc U; rewrite U'.
case RUN: m_solve => [[res s]|//] H.
rewrite (m_solve_same U U' (fun _ _ _ _ _ _ _ K => K) RUN) //.
by move=> u x p I Fx Fp; apply: SM; apply: (evals_in_bounds CF OB SZ SP NS U RUN I).
Qed.
Print Assumptions C110_bounds.

(** The sensitivities are the same, too, if the derivatives with respect to c are. *)
Theorem C110_sensitivities : forall lu eps r0 s0 part E ech nonfinite newton check fuel o f1 f2 f3 oAx oAp obc (w : world E) hist m (P : problem R xreal) st r st' S
    ru f he hg v, let d := p_dims P in
  conforming P -> ordered_bounds P -> state_sized d st -> length (s_p st) = d_p d ->
  (forall w, sized (nxbar d) (d_p d) (ny d + nz d) (snd (newton w))) ->
  (forall x p, in_bounds P x p -> same_at P f he hg v x p /\ same_dc P f he hg v x p) ->
  u_solve_sens lu eps r0 s0 part ech nonfinite newton None check fuel o f1 f2 f3 oAx oAp obc w hist m P st = Some (r, st', S) ->
  u_solve_sens lu eps r0 s0 part ech nonfinite newton None check fuel o f1 f2 f3 oAx oAp obc w hist m (exchange P ru f he hg v (p_bec P) (p_bgc P)) st = Some (r, st', S).
Proof.
move=> lu eps r0 s0 part E ech nonfinite newton check fuel o f1 f2 f3 oAx oAp obc w hist m P st r st' S ru f he hg v d CF OB SZ SP NS SM; rewrite /u_solve_sens.
case U: (update_master f1 f2 f3 oAx oAp obc P) => [M|//].
have [M' U'] := exchange_master ru f he hg v (p_bec P) (p_bgc P) U; rewrite U'.
have D : forall f1 f2 f3 oAx oAp obc M', update_master f1 f2 f3 oAx oAp obc (exchange P ru f he hg v (p_bec P) (p_bgc P)) = Some M' ->
  update_master f1 f2 f3 oAx oAp obc (exchange P ru f he hg v (p_bec P) (p_bgc P)) = Some M' by [].
rewrite (bc_ok_same U U' D) //; case: ifP => // _.
case RUN: m_solve => [[res s]|//].
have IN := evals_in_bounds CF OB SZ SP NS U RUN.
rewrite (m_solve_same U U' D RUN); last by move=> u x p I Fx Fp; apply: (proj1 (SM _ _ (IN _ _ _ I Fx Fp))).
have L : In (s_u s) (s_evals s) by apply: solve_last RUN.
rewrite (w_update_same U U' D); last by move=> x p Fx Fp; apply: (proj1 (SM _ _ (IN _ _ _ L Fx Fp))).
case: (w_res _) => [rr|//]; case Fx: (finite (ux (s_u s))) => [x|//]; case Fp: (finite (up (s_u s))) => [p|//].
by rewrite (m_sens_same U U' D) //; apply: (proj2 (SM _ _ (IN _ _ _ L Fx Fp))).
Qed.
Print Assumptions C110_sensitivities.

(** ** A constant in the objective function has no effect at all, with or without a transformation, and whether or not the calculation ends. *)
Lemma constant_master P a f1 f2 f3 oAx oAp obc : update_master f1 f2 f3 oAx oAp obc (plus_constant P a) =
  match update_master f1 f2 f3 oAx oAp obc P with
  | None => None
  | Some M => Some (Master (ms_nx M) (ms_np M) (ms_ny M) (ms_nz M) (ms_r M) (master_f (p_dims P) (oget (option_map (shifted a) (p_f P)))) (ms_h M) (ms_v M)
      (ms_Ax M) (ms_Ap M) (ms_b M) (ms_xlower M) (ms_xupper M) (ms_plower M) (ms_pupper M) (ms_c M) (ms_bc M))
  end.
Proof.
rewrite /update_master.
cbn [plus_constant p_dims p_r p_f p_he p_hg p_v p_Aex p_Aep p_Agx p_Agp p_be p_bg p_xlower p_xupper p_plower p_pupper p_c p_bec p_bgc].
have -> : initialized (option_map (shifted a) (p_f P)) = initialized (p_f P) by case: (p_f P).
case: (initialized (p_f P)); cbn [negb]; last exact: erefl.
case: andb; first exact: erefl.
case: andb; first exact: erefl.
case: andb; first exact: erefl.
cbn [ms_nx ms_np ms_ny ms_nz ms_r ms_h ms_v ms_Ax ms_Ap ms_b ms_xlower ms_xupper ms_plower ms_pupper ms_c ms_bc]; exact: erefl.
Qed.
Lemma constant_evals P a f1 f2 f3 oAx oAp obc M M' : update_master f1 f2 f3 oAx oAp obc P = Some M ->
  M' = Master (ms_nx M) (ms_np M) (ms_ny M) (ms_nz M) (ms_r M) (master_f (p_dims P) (oget (option_map (shifted a) (p_f P)))) (ms_h M) (ms_v M)
      (ms_Ax M) (ms_Ap M) (ms_b M) (ms_xlower M) (ms_xupper M) (ms_plower M) (ms_pupper M) (ms_c M) (ms_bc M) ->
  m_evals M' = m_evals M.
Proof.
move=> U ->; apply: functional_extensionality => x; apply: functional_extensionality => p; rewrite /m_evals /m_h /m_v /m_f; cbn [ms_f ms_h ms_v ms_c].
have -> : ms_f M = master_f (p_dims P) (oget (p_f P)) by rewrite (Meq _ _ _ _ _ _ _ _ U).
by rewrite /ocall /master_f /ocall; case: (p_f P).
Qed.
Lemma constant_update part E ech nonfinite (M M' : master R xreal) f : 
  M' = Master (ms_nx M) (ms_np M) (ms_ny M) (ms_nz M) (ms_r M) f (ms_h M) (ms_v M)
      (ms_Ax M) (ms_Ap M) (ms_b M) (ms_xlower M) (ms_xupper M) (ms_plower M) (ms_pupper M) (ms_c M) (ms_bc M) ->
  m_evals M' = m_evals M -> forall (w : world E) u, w_update part M' ech nonfinite w u = w_update part M ech nonfinite w u.
Proof.
move=> EM EV w u; rewrite /w_update EV.
have [-> -> ->] : [/\ m_data M' = m_data M, m_Wx M' = m_Wx M & m_Wp M' = m_Wp M] by rewrite EM; split; exact: erefl.
have [-> -> -> ->] : [/\ ms_nx M' = ms_nx M, ms_np M' = ms_np M, ms_ny M' = ms_ny M & ms_nz M' = ms_nz M] by rewrite EM; split; exact: erefl.
exact: erefl.
Qed.
Theorem C110_constant : forall part E ech nonfinite newton phi check fuel o f1 f2 f3 oAx oAp obc (w : world E) hist m (P : problem R xreal) a st,
  u_solve part ech nonfinite newton phi check fuel o f1 f2 f3 oAx oAp obc w hist m (plus_constant P a) st =
  u_solve part ech nonfinite newton phi check fuel o f1 f2 f3 oAx oAp obc w hist m P st.
Proof.
move=> part E ech nonfinite newton phi check fuel o f1 f2 f3 oAx oAp obc w hist m P a st; rewrite /u_solve constant_master.
case U: (update_master f1 f2 f3 oAx oAp obc P) => [M|]; last exact: erefl.
set M' := Master _ _ _ _ _ _ _ _ _ _ _ _ _ _ _ _ _.
have EM : M' = Master (ms_nx M) (ms_np M) (ms_ny M) (ms_nz M) (ms_r M) (master_f (p_dims P) (oget (option_map (shifted a) (p_f P)))) (ms_h M) (ms_v M)
      (ms_Ax M) (ms_Ap M) (ms_b M) (ms_xlower M) (ms_xupper M) (ms_plower M) (ms_pupper M) (ms_c M) (ms_bc M) by exact: erefl.
have B : m_bounds M' = m_bounds M by rewrite EM; exact: erefl.
have W : w_update part M' ech nonfinite = w_update part M ech nonfinite.
  by apply: functional_extensionality => w1; apply: functional_extensionality => u1; apply: (constant_update _ _ _ EM (constant_evals U EM)).
have S : m_solve part M' ech nonfinite newton phi check fuel o w hist = m_solve part M ech nonfinite newton phi check fuel o w hist.
  by rewrite /m_solve B W.
have D : p_dims (plus_constant P a) = p_dims P by exact: erefl.
rewrite S D; exact: erefl.
Qed.
Print Assumptions C110_constant.

(** The problem of C76_case (min x subject to x >= 1, -5 <= x) meets the hypotheses of C110_bounds together with the objective function that is x + 7
    within the bounds and has other derivatives below -5; the calculation of C76_case ends. *)
Definition other110 : ofun R := fun x p c r =>
  if Rle_dec (IZR (-5)) (at_ x 0) then shifted (IZR 7) (uf P57) x p c r else ozero.
Example C110_case : conforming P57 /\ ordered_bounds P57 /\ state_sized (p_dims P57) st57 /\
  (forall x p, in_bounds P57 x p -> same_at P57 other110 (uhe P57) (uhg P57) (uv P57) x p) /\
  o_fx (ovalue other110 (IZR (-6) :: nil) nil nil) 0 <> o_fx (ovalue (uf P57) (IZR (-6) :: nil) nil nil) 0 /\
  exists r st', u_solve libstdcxx_partition (fun a _ _ _ => (a, q57)) (fun a _ => (a, XNaN)) (fun w => (w, fin (R0 :: R0 :: nil) nil (R0 :: nil))) None None 1
    (Options 5 (XF R1) false) mem7 mem7 mem7 old7 old7 old7 w57 nil m0 (exchange P57 None other110 (uhe P57) (uhg P57) (uv P57) mzeros mzeros) st57 = Some (r, st') /\
    r_succeeded r = true.
Proof.
have [M [r [st' [[_ [CF OB]] _ U _ [RUN [S _]]]]]] := C76_case.
have SZ : state_sized (p_dims P57) st57 by repeat split.
have SM : forall x p, in_bounds P57 x p -> same_at P57 other110 (uhe P57) (uhg P57) (uv P57) x p.
  move=> x p [Lx [_ [Wx _]]]; split; last by split; [exact: same_c_refl|split; exact: same_c_refl].
  have [] := Wx 0%N; first by rewrite Lx; apply/ssrnat.ltP.
  rewrite /bd /= /rleb; case: Rle_dec => // L _ _ i j; rewrite /ovalue /other110; case: (Rle_dec _ (at_ x 0)) => [L2|N]; last by case: N.
  by split; [exact: erefl|split; exact: erefl].
split; first exact: CF.
split; first exact: OB.
split; first exact: SZ.
split; first exact: SM.
split.
  rewrite /ovalue /other110 /at_ /=; case: Rle_dec => [L|_] /=; first by exfalso; lra.
  by move=> K; lra.
exists r, st'; split; last exact: S.
apply: C110_bounds RUN => //.
Qed.
