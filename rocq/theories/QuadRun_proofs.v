(** Proofs for C92_equality_partial: the Newton step of an equality-constrained quadratic program. *)
From Coq Require Import List PeanoNat Permutation Reals Lra Lia.
From mathcomp Require Import all_ssreflect all_fingroup all_algebra.
From Verif Require Import Num Num_facts Index_model Index_spec Index_proofs MatUtil_model Num_rf R_rf LU_model LU_spec Linear_model Linear_spec Canonical_model Canonical_spec Canonical_proofs.
From Verif Require Import ResErr_model Residual_model Residual_spec Residual_proofs P_Residual Accept_proofs.
From Verif Require Import Loop_model Loop_spec Loop_proofs Wrapper_model Wrapper_spec Wrapper_proofs P_Wrapper End_model End_spec End_proofs Indep_proofs Near_proofs.
From Verif Require Import Newton_model Newton_spec Newton_proofs Exact_proofs Quadratic_spec Quadratic_proofs.
Set Implicit Arguments.
Unset Strict Implicit.
Unset Printing Implicit Defensive.
Import Order.TTheory GRing.Theory Num.Theory.
Local Open Scope ring_scope.
#[local] Existing Instance Num_rf.

Lemma all_repeat (l : list xreal) k v : length l = k -> (forall i, (i < k)%coq_nat -> bd l i = v) -> l = List.repeat v k.
Proof.
move=> L H; apply: (nth_ext _ _ XNaN v); first by rewrite repeat_length.
by move=> i il; rewrite nth_repeat; apply: H; rewrite -L.
Qed.

Section ExactError.
Variables (F : realFieldType) (part : partition_impl) (nx np ny nz : nat).
Let nw := (ny + nz)%N.
Variables (d : pdata F) (e : evals F) (Wx Wp : rawmx F) (q : rwq F) (u : mvec F).
Hypothesis HC : partition_contract part.
Hypothesis HE : echelon_of nx np nw e Wx Wp q.

(** without cancellation the error at a stationary feasible point is zero *)
Lemma exact_error r tol : rf_update part nx np ny nz d e Wx Wp q u = Some r -> 0 < tol ->
  (forall i, (i < nx)%N -> lagrangian ny nz e Wx u i = 0) -> (forall k, (k < np)%N -> ev e k = 0) ->
  (forall l, (l < nw)%N -> constraint_left nx np ny d e Wx Wp u l = 0) ->
  (forall i, (i < length (qjb q))%N -> no_cancellation ny nz (kR (rc r)) (rv_awstar np ny d e (rM r) (rc r) u) i) ->
  rerror r < tol.
Proof.
move=> E t0 H1 H2 H3 NC; have [EM CV EE] := rf_update_view HC HE E.
rewrite EE /err_update /err_max !rf_max !lt_maxl; apply/andP; split; first (apply/andP; split).
- apply: norminf_lt => // i ix.
  have U : rv_ax ny nz e (rM r) (rc r) u i = 0.
    have [iu|iu] := in_dec Nat.eq_dec i (kju (rc r)); first exact: ax_unstable.
    by rewrite (ax_stable _ _ _ _ _ ix iu) EM /= H1 // oppr0.
  by rewrite /err_ex U; do ?case: ifP; rewrite /nzero /= ?normr0.
- by apply: norminf_lt => // k kp; rewrite /err_ep /rv_ap /= normr_id normrN H2 // normr0.
- apply: norminf_lt => // i iw; rewrite /err_ewbar; case: Nat.ltb_spec => [/ssrnat.ltP ib|_]; last by rewrite /nzero /= normr0.
  rewrite /= normr_id.
  have ib' : (i < length (qjb q))%N by rewrite (Permutation_length (cv_basic CV)); have [-> _ _] := cv_sizes CV.
  have -> := awbs_exact CV ib (NC i ib').
  rewrite EM /= /combined big1 ?normr0 // => l _; by rewrite H3 ?mulr0.
Qed.
End ExactError.

Section Run.
Variables (f1 f2 f3 : nat -> R) (oAx oAp obc : mat R) (P : problem R xreal) (M : master R xreal) (H : nat -> nat -> R) (c : nat -> R).
Let d := p_dims P.
Let n := d_x d.
Let m := d_be d.
Hypothesis C : conforming P.
Hypothesis U : update_master f1 f2 f3 oAx oAp obc P = Some M.
Hypothesis Q : quadratic P H c.
Hypothesis EO : equalities_only P.
Hypothesis PD : positive_along P H.
Hypothesis IE : forall x, independent_equalities P x nil.
Hypothesis BU : basic_uncancelled P.

Lemma dims92 : [/\ ms_nx M = n, ms_np M = 0%N, ms_ny M = m & ms_nz M = 0%N].
Proof.
have [E1 [E2 [E3 [E4 _]]]] := EO.
by rewrite (Meq _ _ _ _ _ _ _ _ U) /= /nxbar /ny /nz E1 E2 E3 E4 -/d /n /m !Nat.add_0_r.
Qed.
Lemma W92 x p l j : (l < m)%N -> (j < n)%N -> m_Wx M x p l j = p_Aex P l j.
Proof.
move=> lm jn; have [_ _ E3 _] := dims92; rewrite /m_Wx E3 lm.
have [_ [E2 [_ [E4 _]]]] := EO.
have lm' : (l < d_be (p_dims P))%coq_nat by apply/ssrnat.ltP.
have jn' : (j < d_x (p_dims P))%coq_nat by apply/ssrnat.ltP.
rewrite (Ax_doc _ _ _ _ _ _ _ _ U _ (List.repeat R0 (d_x (p_dims P))) nil nil (repeat_length _ _) (esym E2) (esym E4)).
- rewrite /documented_Ax; case: Nat.ltb_spec => [_|H']; last by exfalso; lia.
  by case: Nat.ltb_spec => // H'; exfalso; lia.
- by move=> i k _; rewrite E2; lia.
- by rewrite /ny; lia.
- by rewrite /nxbar; lia.
Qed.
Lemma g92' x j : length x = n -> (j < n)%N -> eg (m_evals M x nil) j = Rplus (Wrapper_spec.sum n (fun k => Rmult (H j k) (at_ x k))) (c j).
Proof.
move=> Lx jn; rewrite /= /m_f (Meq _ _ _ _ _ _ _ _ U) /ocall /= /master_f /ocall /= (head_all _ _ Lx).
have jn' : (j < d_x (p_dims P))%coq_nat by apply/ssrnat.ltP.
case: Nat.ltb_spec => [_|H']; last by exfalso; lia.
by have [_ QQ] := Q; have [_ [-> //]] := QQ x Lx.
Qed.
Lemma h92' x i j : length x = n -> (i < n)%N -> (j < n)%N -> eHxx (m_evals M x nil) i j = H i j.
Proof.
move=> Lx ia jn; rewrite /= /m_f (Meq _ _ _ _ _ _ _ _ U) /ocall /= /master_f /ocall /= (head_all _ _ Lx).
have jn' : (j < d_x (p_dims P))%coq_nat by apply/ssrnat.ltP.
have in' : (i < d_x (p_dims P))%coq_nat by apply/ssrnat.ltP.
case: Nat.ltb_spec => [_|H']; last by exfalso; lia.
case: Nat.ltb_spec => [_|H']; last by exfalso; lia.
by have [_ QQ] := Q; have [_ [_ ->]] := QQ x Lx.
Qed.

Section Point.
Variables (part : partition_impl) (x w : list R) (q : rwq RF) (r : residual RF).
Hypothesis Lx : length x = n.
Let u := MVec (vec x : rawvec RF) (vec nil : rawvec RF) (vec w : rawvec RF).
Let e := m_evals M x nil.
Hypothesis HC : partition_contract part.
Hypothesis HQ : echelon_of (ms_nx M) (ms_np M) (ms_ny M + ms_nz M) e (m_Wx M x nil) (m_Wp M x nil) q.
Hypothesis RU : rf_update part (ms_nx M) (ms_np M) (ms_ny M) (ms_nz M) (m_data M x) e (m_Wx M x nil) (m_Wp M x nil) q u = Some r.
Hypothesis LQ : length (qjb q) = (ms_ny M + ms_nz M)%N.

Lemma none_unstable j : (j < n)%N -> ~ In j (status_ju (rst r)).
Proof.
move=> jn; have [E1 E2 E3 E4] := dims92.
have [_ _ _ JU] := @rf_ju _ _ _ _ _ _ (m_data M x) _ _ _ _ u HC HQ.
have -> : rst r = rf_stability part (ms_nx M) (ms_ny M) (ms_nz M) (m_data M x) e (m_Wx M x nil) (qjb q) u.
  by move: RU; rewrite /rf_update; case: canonicalize => // c' [<-].
move=> /JU /=; have jn' : (j < d_x (p_dims P))%coq_nat by apply/ssrnat.ltP.
have [B1 B2] := bd_x _ _ _ _ _ _ _ _ C U j jn'.
have [_ [_ [_ [_ [B _]]]]] := EO; have [B3 B4] := B j jn'.
rewrite B3 /bd in B1; rewrite B4 /bd in B2; rewrite B1 B2 /=.
have NE : vec x j <> Rplus (vec x j) R1 by lra.
by case=> -[/NE].
Qed.

Lemma sum_coq k (f g : nat -> RF) : (forall i, (i < k)%N -> f i = g i) -> \sum_(i < k) f i = Wrapper_spec.sum k g.
Proof. by move=> H'; rewrite -sum_big; apply: eq_bigr => i _; apply: H'. Qed.

(** the Newton equations of the problem *)
Lemma eqs92 fixed a b cc du : (forall j, (j < n)%N -> ~ fixed j) ->
  newton_eqs (ms_nx M) (ms_np M) (ms_ny M + ms_nz M) e (m_Wx M x nil) (m_Wp M x nil) fixed a b cc du <->
  (forall i, (i < n)%coq_nat -> Rplus (Wrapper_spec.sum n (fun j => Rmult (H i j) (mx du j))) (Wrapper_spec.sum m (fun l => Rmult (p_Aex P l i) (mw du l))) = a i) /\
  (forall l, (l < m)%coq_nat -> Wrapper_spec.sum n (fun j => Rmult (p_Aex P l j) (mx du j)) = cc l).
Proof.
have [E1 E2 E3 E4] := dims92; rewrite E1 E2 E3 E4 addn0 => NF.
have R1' i : (i < n)%N -> \sum_(j < n) eHxx e i j * mx du j = Wrapper_spec.sum n (fun j => Rmult (H i j) (mx du j)).
  by move=> ia; apply: (sum_coq (f := fun j => eHxx e i j * mx du j)) => j jn; rewrite h92'.
have R2' i : (i < n)%N -> \sum_(l < m) m_Wx M x nil l i * mw du l = Wrapper_spec.sum m (fun l => Rmult (p_Aex P l i) (mw du l)).
  by move=> ia; apply: (sum_coq (f := fun l => m_Wx M x nil l i * mw du l)) => l lm; rewrite W92.
have R3' l : (l < m)%N -> \sum_(j < n) m_Wx M x nil l j * mx du j = Wrapper_spec.sum n (fun j => Rmult (p_Aex P l j) (mx du j)).
  by move=> lm; apply: (sum_coq (f := fun j => m_Wx M x nil l j * mx du j)) => j jn; rewrite W92.
split=> [[N1 N2 _ N4]|[N2 N4]].
- split=> [i /ssrnat.ltP ia|l /ssrnat.ltP lm].
  + by have := N2 i ia (NF i ia); rewrite big_ord0 addr0 R1' // R2'.
  + by have := N4 l lm; rewrite big_ord0 addr0 R3'.
- split=> // [i ia /(NF i ia)//|i ia _|l lm].
  + by rewrite big_ord0 addr0 R1' // R2' //; apply: N2; apply/ssrnat.ltP.
  + by rewrite big_ord0 addr0 R3' //; apply: N4; apply/ssrnat.ltP.
Qed.

Lemma regular92 : regular (ms_nx M) (ms_np M) (ms_ny M + ms_nz M) e (m_Wx M x nil) (m_Wp M x nil) (fun j => In j (status_ju (rst r))).
Proof.
have [E1 E2 E3 E4] := dims92.
move=> du /(eqs92 _ _ _ _ none_unstable) [N1 N2].
have Z : forall j, (j < n)%coq_nat -> mx du j = R0.
  case: (classic_zero n (mx du)) => // NZ; exfalso.
  have := PD N2 NZ; rewrite -/d -/n.
  suff -> : form n H (mx du) = R0 by lra.
  have -> : form n H (mx du) = Ropp (Wrapper_spec.sum n (fun i => Wrapper_spec.sum m (fun l => Rmult (mw du l) (Rmult (p_Aex P l i) (mx du i))))).
    rewrite /form -Convex_proofs.sum_opp; apply: sum_ext => i ia.
    have := N1 i ia; rewrite -[(0 : RF)]/R0 => N1i.
    transitivity (Rmult (mx du i) (Wrapper_spec.sum n (fun j => Rmult (H i j) (mx du j)))).
      by rewrite -Convex_proofs.sum_scal; apply: sum_ext => j _; lra.
    transitivity (Rmult (Ropp (mx du i)) (Wrapper_spec.sum m (fun l => Rmult (p_Aex P l i) (mw du l)))).
      move: N1i; set A := Wrapper_spec.sum n _; set B := Wrapper_spec.sum m _ => N1i; have -> : A = Ropp B by lra. by ring.
    by rewrite -!Convex_proofs.sum_scal -Convex_proofs.sum_opp; apply: sum_ext => l _; ring.
  rewrite Convex_proofs.sum_swap sum_zero ?Ropp_0 // => l lm.
  by rewrite Convex_proofs.sum_scal (N2 l lm) Rmult_0_r.
have ZW l : (l < m)%coq_nat -> mw du l = R0.
  move=> lm; have [E1' [E2' [E3' [E4' _]]]] := EO.
  apply: (proj1 (@IE x (mw du) (fun _ => R0) _) l lm) => j jn; rewrite E3' /= Rplus_0_r.
  have := N1 j jn; rewrite -[(0 : RF)]/R0 (sum_zero n); last by move=> k kn; rewrite Z // Rmult_0_r.
  rewrite Rplus_0_l => N0; transitivity (Wrapper_spec.sum m (fun l' => Rmult (p_Aex P l' j) (mw du l'))) => //.
  by apply: sum_ext => l' _; exact: Rmult_comm.
split.
- by rewrite E1 => i /ssrnat.ltP ia; apply: Z.
- by rewrite E2.
- by rewrite E3 E4 addn0 => l /ssrnat.ltP lm; apply: ZW.
Qed.

Lemma nocancel92 i : (i < ms_ny M + ms_nz M)%N ->
  no_cancellation (ms_ny M) (ms_nz M) (kR (rc r)) (rv_awstar (ms_np M) (ms_ny M) (m_data M x) e (rM r) (rc r) u) i.
Proof.
have [E1 E2 E3 E4] := dims92 => il.
have AW l : (l < m)%N -> rv_awstar (ms_np M) (ms_ny M) (m_data M x) e (rM r) (rc r) u l = at_ (p_be P) l.
  move=> lm; rewrite /rv_awstar E3 lm.
  have [EM CV _] := rf_update_view HC HQ RU.
  rewrite big_seq big1; last first.
    move=> j jl; exfalso; have jl' : In j (kju (rc r)) by apply/mem_In.
    have RS : rst r = rf_stability part (ms_nx M) (ms_ny M) (ms_nz M) (m_data M x) e (m_Wx M x nil) (qjb q) u.
      by move: RU; rewrite /rf_update; case: canonicalize => // c' [<-].
    have ju : In j (status_ju (rst r)) by move/(cv_unstable CV): jl'; rewrite EM RS.
    have jn : (j < n)%N.
      have [_ RG _ _] := @rf_ju _ _ _ _ _ _ (m_data M x) _ _ _ _ u HC HQ.
      by rewrite -E1; apply: RG; rewrite -RS.
    exact: none_unstable jn ju.
  rewrite subr0 /= /vec (Meq _ _ _ _ _ _ _ _ U) /=.
  have [C1 _] := C; rewrite /at_ app_nth1 // C1; apply/ssrnat.ltP; exact: lm.
have [k kl Ek] : exists2 k, (k < length (qjb q))%N & kR (rc r) i = qR q k.
  move: (RU); rewrite /rf_update; case CC: canonicalize => [cc|//] [<-] /=; apply: (canonicalize_rows HC CC); by rewrite LQ.
set aw := rv_awstar _ _ _ _ _ _ _ in AW *.
rewrite /no_cancellation /roundoff Ek E3 E4 addn0.
have [PQ QE _ _] := HQ nil.
have LQ' : length (qjb q) = m by rewrite LQ E3 E4 addn0.
have km : (k < m)%N by rewrite -LQ'.
have IV : forall i0 k0, (i0 < d_be (p_dims P))%coq_nat -> (k0 < d_be (p_dims P))%coq_nat ->
    Wrapper_spec.sum (d_be (p_dims P)) (fun l => Rmult (qR q i0 l) (p_Aex P l (List.nth k0 (qjb q) 0%N))) = if Nat.eqb i0 k0 then R1 else R0.
  move=> i0 k0 /ssrnat.ltP i0m /ssrnat.ltP k0m.
  have := QE i0 k0; rewrite LQ' => /(_ i0m k0m); rewrite E3 E4 addn0 => QE'.
  have k0n : (ix (qjb q) k0 < n)%N.
    have : In (ix (qjb q) k0) (indices (ms_nx M)).
      apply: (Permutation_in _ (Permutation_sym PQ)); apply/in_app_iff; left; apply: nth_In; rewrite LQ'; exact/ssrnat.ltP.
    by rewrite /indices E1 => /in_seq [_ /ssrnat.ltP].
  rewrite (_ : Wrapper_spec.sum _ _ = \sum_(l < m) qR q i0 l * m_Wx M x nil l (ix (qjb q) k0)).
    by rewrite QE'; case: Nat.eqb_spec => [->|NE]; rewrite ?eqxx //; case: eqP.
  by rewrite (sum_coq (f := fun l => qR q i0 l * m_Wx M x nil l (ix (qjb q) k0)) (g := fun l => Rmult (qR q i0 l) (p_Aex P l (ix (qjb q) k0)))) // => l lm; rewrite W92.
rewrite (sum_coq (f := fun l => qR q k l * aw l) (g := fun l => Rmult (qR q k l) (at_ (p_be P) l))); last by move=> l lm; rewrite AW.
rewrite (sum_coq (f := fun l => `|qR q k l| * `|aw l|) (g := fun l => Rmult (Rabs (qR q k l)) (Rabs (at_ (p_be P) l)))); last by move=> l lm; rewrite AW.
case: (BU LQ' IV (i := k)) => [|B|B]; first exact/ssrnat.ltP.
- by left.
- right; apply/R_leP; rewrite eps_spec; exact: B.
Qed.
End Point.
End Run.
