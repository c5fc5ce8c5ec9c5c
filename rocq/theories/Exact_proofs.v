(** Proofs for C81: one iteration for a problem that is its own linearisation. *)
From Coq Require Import List PeanoNat Permutation Reals Lra Lia.
From mathcomp Require Import all_ssreflect all_fingroup all_algebra.
From Verif Require Import Num Num_facts Index_model Index_spec Index_proofs MatUtil_model Num_rf R_rf LU_model LU_spec Linear_model Linear_spec Canonical_model Canonical_spec Canonical_proofs.
From Verif Require Import ResErr_model Residual_model Residual_spec Residual_proofs P_Residual.
From Verif Require Import Loop_model Loop_spec Loop_proofs P_Loop Wrapper_model Wrapper_spec Wrapper_proofs P_Wrapper Stay_proofs End_model End_spec Near_proofs End_proofs.
From Verif Require Import Newton_model Newton_spec Newton_proofs Exact_spec.
Set Implicit Arguments.
Unset Strict Implicit.
Unset Printing Implicit Defensive.
Import Order.TTheory GRing.Theory Num.Theory.
Local Open Scope ring_scope.

(** Two solutions of the Newton equations agree when they are regular *)
Lemma newton_unique (F : realFieldType) nx np nw (e : evals F) Wx Wp fixed a b c du dv :
  regular nx np nw e Wx Wp fixed ->
  newton_eqs nx np nw e Wx Wp fixed a b c du -> newton_eqs nx np nw e Wx Wp fixed a b c dv ->
  [/\ forall i, (i < nx)%N -> mx du i = mx dv i, forall k, (k < np)%N -> mp du k = mp dv k & forall l, (l < nw)%N -> mw du l = mw dv l].
Proof.
move=> RG [U1 U2 U3 U4] [V1 V2 V3 V4].
pose w := MVec (fun i => mx du i - mx dv i) (fun i => mp du i - mp dv i) (fun i => mw du i - mw dv i).
have D n (A f g : nat -> F) : \sum_(j < n) A j * (f j - g j) = \sum_(j < n) A j * f j - \sum_(j < n) A j * g j.
  by rewrite -sumrB; apply: eq_bigr => j _; rewrite mulrBr.
have NE : newton_eqs nx np nw e Wx Wp fixed (fun _ => 0) (fun _ => 0) (fun _ => 0) w.
split.
- by move=> i ix fi /=; rewrite U1 // V1 // subrr.
- move=> i ix fi; rewrite /= !D (D nw (Wx ^~ i) (mw du) (mw dv)) -[RHS](subrr (a i)) -{1}(U2 i ix fi) -(V2 i ix fi).
  by rewrite [X in X + (_ - _)]addrACA -opprD addrACA -opprD.
- move=> k kp; rewrite /= !D -[RHS](subrr (b k)) -{1}(U3 k kp) -(V3 k kp).
  by rewrite addrACA -opprD.
- move=> l lw; rewrite /= !D -[RHS](subrr (c l)) -{1}(U4 l lw) -(V4 l lw).
  by rewrite addrACA -opprD.
have [W1 W2 W3] := RG w NE.
by split=> i ix; apply/eqP; rewrite -subr_eq0; apply/eqP; [apply: W1 | apply: W2 | apply: W3].
Qed.

Section One.
Variables (part : partition_impl) (M : master R xreal).
Let nx := ms_nx M. Let np := ms_np M. Let ny := ms_ny M. Let nz := ms_nz M.
Variables (x p w x' p' w' : list R).
Hypothesis KK : master_kkt M x' p' w'.
Hypothesis EX : exact_linearisation M x p x' p'.
Let e := m_evals M x p.
Let u := MVec (vec x : rawvec RF) (vec p : rawvec RF) (vec w : rawvec RF).

Lemma Wx_same l j : (l < ny + nz)%N -> (j < nx)%N -> m_Wx M x' p' l j = m_Wx M x p l j.
Proof.
move=> ll jn; rewrite /m_Wx; case: ifP => // /negbT; rewrite -leqNgt => nl.
have [_ [_ [_ H]]] := EX; apply: H; last exact/ssrnat.ltP.
by apply/ssrnat.ltP; rewrite ltn_subLR.
Qed.

Definition delta : mvec RF := MVec (fun i => vec x' i - vec x i : RF) (fun k => vec p' k - vec p k : RF) (fun l => vec w' l - vec w l : RF).
Lemma predictedE (A B : nat -> nat -> R) i :
  predicted nx np x p x' p' A B i = \sum_(j < nx) (A i j : RF) * mx delta j + \sum_(k < np) (B i k : RF) * mp delta k.
Proof.
by rewrite (sum_big nx (fun j => A i j * mx delta j)) (sum_big np (fun j => B i j * mp delta j)).
Qed.

Variable fixed : nat -> Prop.
Hypothesis AC : forall j, (j < nx)%coq_nat -> (fixed j -> at_ x' j = at_ x j) /\ (~ fixed j -> cgrad M x' p' w' j = R0).

Lemma delta_newton : newton_eqs nx np (ny + nz) e (m_Wx M x p) (m_Wp M x p) fixed
  (fun i => - lagrangian ny nz e (m_Wx M x p) u i) (fun k => - ev e k)
  (constraint_left nx np ny (m_data M x) e (m_Wx M x p) (m_Wp M x p) u) delta.
Proof.
have [[K1 [K2 [K3 _]]] _] := KK; have [X1 [X2 [X3 _]]] := EX.
have D n (A f g : nat -> RF) : \sum_(j < n) A j * (f j - g j) = \sum_(j < n) A j * f j - \sum_(j < n) A j * g j.
  by rewrite -sumrB; apply: eq_bigr => j _; rewrite mulrBr.
split.
- by move=> i /ssrnat.ltP il fi; rewrite /= /vec; have [/(_ fi) H _] := AC il; rewrite -/(at_ x' i) H subrr.
- move=> i il nf; have [_ /(_ nf) H] := AC (elimT ssrnat.ltP il).
  have L' : lagrangian ny nz (m_evals M x' p') (m_Wx M x' p') (MVec (vec x') (vec p') (vec w')) i = 0 by rewrite lagrangian_spec.
  move: L'; rewrite /lagrangian (eq_bigr (fun l : 'I_(ny + nz) => m_Wx M x p l i * vec w' l)); last first.
    by move=> l _; rewrite Wx_same.
  have -> : eg (m_evals M x' p') i = eg e i + (\sum_(j < nx) eHxx e i j * mx delta j + \sum_(k < np) eHxp e i k * mp delta k).
    by rewrite [LHS](X1 i (elimT ssrnat.ltP il)) predictedE.
  move=> H0; rewrite (D (ny + nz)%N (m_Wx M x p ^~ i) (vec w') (vec w)).
  apply/eqP; rewrite -subr_eq0 opprK -[X in _ == X]H0; apply/eqP.
  set A := \sum_(j < nx) _; set Bv := \sum_(k < np) _; set C := \sum_(l < ny + nz) _; set Dv := \sum_(l < ny + nz) _; set G := eg e i.
  have G4 (a c d g : RF) : a + (c - d) + (g + d) = g + a + c by rewrite addrACA subrK [a + g]addrC.
  exact: G4.
- move=> k kp; rewrite -(predictedE (eVpx e) (eVpp e)) /=.
  have H := X3 k (elimT ssrnat.ltP kp); rewrite (K3 k (elimT ssrnat.ltP kp)) in H.
  apply/eqP; rewrite -subr_eq0 opprK addrC; apply/eqP; symmetry; exact: H.
- move=> l ll; rewrite /constraint_left; case: ifP => ly.
    have := K1 l (elimT ssrnat.ltP ly); rewrite /Wrapper_spec.lin => H.
    rewrite (D nx (m_Wx M x p l) (vec x') (vec x)) (D np (m_Wp M x p l) (vec p') (vec p)).
    have -> : db (m_data M x) l = \sum_(j < nx) m_Wx M x p l j * vec x' j + \sum_(k < np) m_Wp M x p l k * vec p' k.
      rewrite -[LHS]H (sum_big nx (fun j => m_Wx M x p l j * vec x' j)) (sum_big np (fun k => m_Wp M x p l k * vec p' k)).
      by congr (_ + _); apply: sum_ext => j _; rewrite /m_Wx /m_Wp -/ny ly.
    by rewrite /= -!addrA; congr (_ + _); rewrite addrCA; congr (_ + _).
  have lz : (l - ny < nz)%coq_nat by apply/ssrnat.ltP; rewrite ltn_subLR // leqNgt ly.
  have := X2 _ lz; rewrite (K2 _ lz) predictedE => H.
  have -> : \sum_(j < nx) m_Wx M x p l j * mx delta j = \sum_(j < nx) (c_ddx (value (ms_h M) x p (ms_c M)) (l - ny)%N j : RF) * mx delta j.
    by apply: eq_bigr => j _; rewrite /m_Wx -/ny ly.
  have -> : \sum_(k < np) m_Wp M x p l k * mp delta k = \sum_(k < np) (c_ddp (value (ms_h M) x p (ms_c M)) (l - ny)%N k : RF) * mp delta k.
    by apply: eq_bigr => j _; rewrite /m_Wp -/ny ly.
  apply/eqP; rewrite -subr_eq0 opprK addrC; apply/eqP; symmetry; exact: H.
Qed.
End One.
