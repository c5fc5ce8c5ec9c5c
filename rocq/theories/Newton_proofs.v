(** Proofs for C80: the Newton direction solves the linearised optimality conditions. *)
From Coq Require Import List PeanoNat Permutation Lia.
From mathcomp Require Import all_ssreflect all_fingroup all_algebra.
From Verif Require Import Num Num_facts Index_model Index_spec Index_proofs MatUtil_model Num_rf LU_model LU_spec Linear_model Linear_spec Linear_proofs P_Linear.
From Verif Require Import Canonical_model Canonical_spec Canonical_proofs P_Canonical ResErr_model Residual_model Residual_spec Residual_proofs P_Residual.
From Verif Require Import Newton_model Newton_spec.
Set Implicit Arguments.
Unset Strict Implicit.
Unset Printing Implicit Defensive.
Import Order.TTheory GRing.Theory Num.Theory.
Local Open Scope ring_scope.
#[local] Existing Instance Num_rf.

Section Direction.
Variables (F : realFieldType) (lu : forall n, 'M[F]_n -> lufac F n) (eps : F) (meth : lsmethod).
Hypothesis LU : forall n (A : 'M[F]_n), full_piv A (lu A).
Hypothesis e0 : 0 <= eps.
Variables (part : partition_impl) (nx np ny nz : nat).
Let nw := (ny + nz)%N.
Variables (d : pdata F) (e : evals F) (Wx Wp : rawmx F) (q : rwq F) (u : mvec F).
Hypothesis HC : partition_contract part.
Hypothesis HE : echelon_of nx np nw e Wx Wp q.
Variable r : residual F.
Hypothesis RU : rf_update part nx np ny nz d e Wx Wp q u = Some r.
Hypothesis LQ : length (qjb q) = nw.
Let c := rc r.
Let M := rM r.
Let nbs := (knbe c + knbi c)%N.
Let CV : canonical_view nx np nw M q c. Proof. by have [] := rf_update_view HC HE RU. Qed.
Let EM : M = rf_master e Wx Wp (status_ju (rst r)).
Proof. by move: RU; rewrite /rf_update /M; case: canonicalize => // c' [<-]. Qed.
Let fixed i := In i (status_ju (rst r)).

Lemma fixedE i : fixed i <-> In i (kju c).
Proof. by rewrite /fixed; have := cv_unstable CV i; rewrite EM /= => H; split=> /H. Qed.
Lemma freeE i : (i < nx)%N -> ~ fixed i -> In i (kjs c).
Proof. by move=> ix nf; apply/(cv_stable CV); split=> //; rewrite EM. Qed.
Lemma nbsE : nbs = nw.
Proof. by have [H _ _] := cv_sizes CV; rewrite /nbs -H -(Permutation_length (cv_basic CV)) LQ. Qed.

Lemma R_left i k : (i < nw)%N -> (k < nw)%N -> \sum_(l < nw) kR c i l * Wx l (ix (kjb c) k) = (i == k)%:R.
Proof.
move=> il kl; have [_ H _ _] := cv_echelon CV; rewrite EM /= in H; apply: H.
  by have [-> _ _] := cv_sizes CV; rewrite -/nbs nbsE.
by have [-> _ _] := cv_sizes CV; rewrite -/nbs nbsE.
Qed.
Lemma R_right l l' : (l < nw)%N -> (l' < nw)%N -> \sum_(i < nw) Wx l (ix (kjb c) i) * kR c i l' = (l == l')%:R.
Proof.
move=> ll ll'.
pose A := \matrix_(i < nw, k < nw) kR c i k.
pose B := \matrix_(i < nw, k < nw) Wx i (ix (kjb c) k).
have AB : A *m B = 1%:M.
  apply/matrixP => i k; rewrite !mxE -[i == k]/((i : nat) == k).
  by rewrite -R_left //; apply: eq_bigr => j _; rewrite !mxE.
have := congr1 (fun X : 'M_nw => X (Ordinal ll) (Ordinal ll')) (mulmx1C AB).
by rewrite !mxE => <-; apply: eq_bigr => i _; rewrite !mxE.
Qed.
(** a vector of constraints is determined by its combinations with the rows of R *)
Lemma recombine (v : rawvec F) l : (l < nw)%N -> \sum_(i < nw) Wx l (ix (kjb c) i) * (\sum_(l' < nw) kR c i l' * v l') = v l.
Proof.
move=> ll; under eq_bigr do rewrite mulr_sumr.
rewrite exchange_big /=.
rewrite (eq_bigr (fun l' : 'I_nw => (l == l')%:R * v l')); last first.
  by move=> l' _; rewrite -(R_right ll (ltn_ord l')) mulr_suml; apply: eq_bigr => i _; rewrite mulrA.
rewrite (bigD1 (Ordinal ll)) //= eqxx mul1r big1 ?addr0 // => i ni.
by case: eqP => [E|]; [case/eqP: ni; apply: val_inj | rewrite mul0r].
Qed.
Lemma combine (v : rawvec F) i : (i < nw)%N -> \sum_(l < nw) kR c i l * (\sum_(k < nw) Wx l (ix (kjb c) k) * v k) = v i.
Proof.
move=> ll; under eq_bigr do rewrite mulr_sumr.
rewrite exchange_big /=.
rewrite (eq_bigr (fun k : 'I_nw => (i == k)%:R * v k)); last first.
  by move=> l' _; rewrite -(R_left ll (ltn_ord l')) mulr_suml; apply: eq_bigr => k _; rewrite mulrA.
rewrite (bigD1 (Ordinal ll)) //= eqxx mul1r big1 ?addr0 // => k ni.
by case: eqP => [E|]; [case/eqP: ni; apply: val_inj | rewrite mul0r].
Qed.

(** the canonical equations for [a] in the form of the specification *)
Lemma eqs_newton (a v : mvec F) : (forall i, In i (kju c) -> mx a i = 0) ->
  master_eqs np nw M c a v -> newton_eqs nx np nw e Wx Wp fixed (mx a) (mp a) (mw a) v.
Proof.
move=> Z [E1 E2 E3 E4].
have V0 i : In i (kju c) -> mx v i = 0 by move=> iu; rewrite E2 // Z.
have SJ (f : nat -> F) : \sum_(j <- kjs c) f j * mx v j = \sum_(j < nx) f j * mx v j.
  rewrite (sum_js_ju CV (fun j => f j * mx v j)) [X in _ = _ + X](_ : _ = 0) ?addr0 //.
  have : forall j, In j (kju c) -> f j * mx v j = 0 by move=> j /V0 ->; rewrite mulr0.
  by elim: (kju c) => [|j l IH] H; rewrite ?big_nil // big_cons H ?IH ?addr0 //; [move=> k kl; apply: H; right | left].
split.
- by move=> i ix /fixedE; exact: V0.
- move=> i ix /(freeE ix) ij; rewrite -SJ; move: (E1 i ij); rewrite EM /= => <- //.
- by move=> k kp; rewrite -SJ; move: (E3 k kp); rewrite EM.
- move=> l lw; have H i : (i < nw)%N -> \sum_(l < nw) kR c i l * Wrow np M (kjs c) v l = \sum_(l < nw) kR c i l * mw a l.
    by move=> il; apply: E4; rewrite -/nbs nbsE.
  have := recombine (Wrow np M (kjs c) v) lw; rewrite (eq_bigr (fun i : 'I_nw => Wx l (ix (kjb c) i) * \sum_(l' < nw) kR c i l' * mw a l')).
    by rewrite recombine // => ->; rewrite /Wrow EM /= SJ.
  by move=> i _; rewrite H.
Qed.

Hypothesis RG : regular nx np nw e Wx Wp fixed.
Lemma kkt_nonsingular : nonsingular (canon_cmat np M c).
Proof.
move=> v Ev.
pose a : mvec F := MVec (fun _ => 0) (fun _ => 0) (fun _ => 0).
have Ea : canon_rhs np nw c a = Linear_spec.czero F _ _ _.
  rewrite /canon_rhs /Linear_spec.czero; congr CVec; apply/colP => i; rewrite !mxE //.
  by rewrite big1 // => l _; rewrite mulr0.
rewrite -Ea in Ev.
have ME := C39_master_equations (fun _ => 0) CV Ev.
have NE := @eqs_newton a _ (fun _ _ => erefl) ME.
have [X0 P0 W0] := RG NE.
have S0 k : vxs v k 0 = 0.
  rewrite -(res_s CV a (fun _ => 0) v k); apply: X0.
  have kl : (k < length (kjs c))%coq_nat by have [_ -> _] := cv_sizes CV; apply/ssrnat.ltP; apply: ltn_ord.
  by have [/(_ (nth_In _ _ kl)) []] := cv_stable CV (ix (kjs c) k).
have Q0 k : vp v k 0 = 0 by rewrite -(res_p a (fun _ => 0) v k); apply: P0.
have U0 b : vw v b 0 = 0.
  have bl : (b < nw)%N by rewrite -nbsE.
  have : \sum_(l < nw) Wx l (ix (kjb c) b) * mw (master_result a (fun _ => 0) v) l = 0.
    by rewrite big1 // => l _; rewrite W0 ?mulr0.
  have := res_w nw M a (fun _ => 0) v (lshift _ b).
  have -> : ix (kjs c) (lshift (knne c + knni c) b) = ix (kjb c) b.
    have [lb ls _] := cv_sizes CV.
    have E : ix (kjs c ++ kju c)%list b = ix (kjb c ++ kjn c)%list b by rewrite (cv_order CV).
    move: E; rewrite /ix !app_nth1 ?lb ?ls //; apply/ssrnat.ltP => //; exact: ltn_addr.
  rewrite EM /= => -> H.
  rewrite -{}H (bigD1 b) //= R_left // eqxx mul1r big1 ?addr0 // => k kb.
  have kl : (k < nw)%N by rewrite -nbsE.
  by rewrite R_left // -[(k : nat) == b]/(k == b) (negPf kb) mul0r.
case: v {Ev ME NE X0 P0 W0} S0 Q0 U0 => xs p w /= S0 Q0 U0; rewrite /Linear_spec.czero.
by congr CVec; apply/colP => i; rewrite mxE.
Qed.

Hypothesis NR : newton_resolved lu eps meth np r.
Lemma solve_canonical_ok : exists2 v, solve_canonical lu eps meth (canon_cmat np M c) (newton_rhs np r) = Some v
   & canonical_eqs (canon_cmat np M c) (newton_rhs np r) v.
Proof.
have N := kkt_nonsingular; move: NR; rewrite /newton_resolved /solve_canonical -/M -/c.
case: meth => R.
- exact: C36_fullspace_partial.
- by apply: C37_nullspace_partial => //; apply: C37_reduced.
- by case: R => E D Hn R; apply: rangespace_nbe0.
Qed.

(** what the removal of round-off changes in the constraints *)
Definition cleaned_by (l : nat) : F :=
  \sum_(i < nw) Wx l (ix (kjb c) i) * (rawbs r i - combined nx np ny nz d e Wx Wp u (kR c) i).

Lemma newton_ok u0 : exists2 du, newton_dir lu eps meth np r u0 = Some du &
  newton_eqs nx np nw e Wx Wp fixed (fun i => - lagrangian ny nz e Wx u i) (fun k => - ev e k)
    (fun l => constraint_left nx np ny d e Wx Wp u l + cleaned_by l) du.
Proof.
have [v Ev Hv] := solve_canonical_ok.
pose a : mvec F := MVec (rax r) (rap r) (fun l => \sum_(i < nw) Wx l (ix (kjb c) i) * rawbs r i).
have Ea : canon_rhs np nw c a = newton_rhs np r.
  rewrite /canon_rhs /newton_rhs; congr CVec.
  by apply/colP => i; rewrite !mxE combine // -nbsE.
rewrite -Ea in Hv.
have [EX EP EW] : [/\ rax r = rv_ax ny nz e M c u, rap r = rv_ap e & rawbs r = rv_awbs np ny nz d e M c u].
  by move: RU; rewrite /rf_update /M /c; case: canonicalize => // c' [<-].
have WX : mWx M = Wx by rewrite EM.
have Z : forall i, In i (kju c) -> mx a i = 0 by move=> i iu; rewrite /a /= EX ax_unstable.
have [N1 N2 N3 N4] := eqs_newton Z (C39_master_equations u0 CV Hv).
exists (master_result a u0 v); first by rewrite /newton_dir Ev.
split=> //.
- move=> i ix nf; rewrite (N2 i ix nf) /= EX (ax_stable _ _ _ _ _ ix) ?WX // => /fixedE; exact: nf.
- by move=> k kp; rewrite (N3 k kp) /= EP.
- move=> l lw; rewrite (N4 l lw) /= -(recombine (constraint_left nx np ny d e Wx Wp u) lw) /cleaned_by -big_split /=.
  by apply: eq_bigr => i _; rewrite -mulrDr addrC subrK.
Qed.

Lemma cleaned_bound l : (l < nw)%N ->
  `|cleaned_by l| <= \sum_(i < nw) `|Wx l (ix (kjb c) i)| * roundoff ny nz (kR c) (rv_awstar np ny d e M c u) i.
Proof.
move=> lw; apply: le_trans (ler_norm_sum _ _ _) _; apply: ler_sum => i _.
rewrite normrM ler_wpmul2l //.
have EW : rawbs r = rv_awbs np ny nz d e M c u by move: RU; rewrite /rf_update /M /c; case: canonicalize => // c' [<-].
have ib : (i < knbe c + knbi c)%N by rewrite -/nbs nbsE.
by have := awbs_close d e u CV ib; rewrite EW EM.
Qed.
Lemma cleaned_exact : (forall i, (i < nw)%N -> no_cancellation ny nz (kR c) (rv_awstar np ny d e M c u) i) ->
  forall l, cleaned_by l = 0.
Proof.
move=> NC l; rewrite /cleaned_by big1 // => i _.
have EW : rawbs r = rv_awbs np ny nz d e M c u by move: RU; rewrite /rf_update /M /c; case: canonicalize => // c' [<-].
have ib : (i < knbe c + knbi c)%N by rewrite -/nbs nbsE.
by have := awbs_exact CV ib (NC i (ltn_ord i)); rewrite EW EM /= => ->; rewrite subrr mulr0.
Qed.
End Direction.
