(** Proofs for C87: the Newton direction at a finite point. *)
From Coq Require Import List PeanoNat Permutation Reals Lra Lia.
From mathcomp Require Import all_ssreflect all_algebra.
From Verif Require Import Num Num_facts Index_model Index_spec Num_rf R_rf LU_model LU_spec Linear_model Linear_spec Canonical_model Canonical_spec.
From Verif Require Import ResErr_model Residual_model Residual_spec Residual_proofs Newton_model Newton_spec Newton_proofs Loop_model Loop_spec.
From Verif Require Import P_Residual Wrapper_model Wrapper_spec End_model End_spec End_proofs Exact_proofs.
Set Implicit Arguments.
Unset Strict Implicit.
Unset Printing Implicit Defensive.
Import Order.TTheory GRing.Theory Num.Theory.
Local Open Scope ring_scope.

Section At.
Variables (part : partition_impl) (M : master R xreal) (E : Type).
Variable ech : E -> rawmx RF -> rawmx RF -> rawvec RF -> E * rwq RF.
Variable nonfinite : E -> uvec xreal -> E * xreal.
Variables (lu : forall n, 'M[RF]_n -> lufac RF n) (eps : RF) (meth : lsmethod) (failed : world E -> world E * uvec xreal).
Hypothesis HC : partition_contract part.
Hypothesis HE : ech_contract M ech.
Hypothesis LU : forall n (A : 'M[RF]_n), full_piv A (lu A).
Hypothesis e0 : 0 <= eps.
Let nx := ms_nx M. Let np := ms_np M. Let nw := (ms_ny M + ms_nz M)%N.
Variables (x p w : list R).
Let e := m_evals M x p.
Let u : mvec RF := MVec (vec x : rawvec RF) (vec p : rawvec RF) (vec w : rawvec RF).

(** What is asked of the point: as many basic variables as constraints, and solvable Newton equations *)
Definition newton_ready : Prop := forall a wt, weights_at M x wt ->
  let q := (ech a (m_Wx M x p) (m_Wp M x p) wt).2 in
  length (qjb q) = nw /\
  forall r, rf_update part nx np (ms_ny M) (ms_nz M) (m_data M x) e (m_Wx M x p) (m_Wp M x p) q u = Some r ->
    regular nx np nw e (m_Wx M x p) (m_Wp M x p) (fun j => In j (status_ju (rst r))) /\ newton_resolved lu eps meth np r.

Lemma newton_at v : newton_ready -> exists q r du,
  [/\ (exists a wt, weights_at M x wt /\ q = (ech a (m_Wx M x p) (m_Wp M x p) wt).2) /\ length (qjb q) = nw,
      echelon_of nx np nw e (m_Wx M x p) (m_Wp M x p) q,
      rf_update part nx np (ms_ny M) (ms_nz M) (m_data M x) e (m_Wx M x p) (m_Wp M x p) q u = Some r,
      (w_newton M lu eps meth failed (w_update part M ech nonfinite v (fin x p w))).2 = fin (vlist nx (mx du)) (vlist np (mp du)) (vlist nw (mw du)) &
      newton_eqs nx np nw e (m_Wx M x p) (m_Wp M x p) (fun j => In j (status_ju (rst r)))
        (fun i => - lagrangian (ms_ny M) (ms_nz M) e (m_Wx M x p) u i) (fun k => - ev e k)
        (fun l => constraint_left nx np (ms_ny M) (m_data M x) e (m_Wx M x p) (m_Wp M x p) u l
                  + cleaned_by nx np (ms_ny M) (ms_nz M) (m_data M x) e (m_Wx M x p) (m_Wp M x p) u r l) du].
Proof.
move=> HR; have [q [r [[a [wt [WT Eq]]] HQ RU R1 _]]] := w_update_fin nonfinite v x p w HC HE.
have [LQ H] := HR a wt WT; rewrite -Eq in LQ H.
have [RG NR] := H r RU.
have [du ED ND] := newton_ok LU e0 HC HQ RU LQ RG NR (fun _ => 0).
exists q, r, du; split=> //; first by split=> //; exists a, wt.
by rewrite /w_newton R1 ED.
Qed.
End At.

(** Adding the direction *)
Lemma add_dir n (x : list R) (v : rawvec RF) : length x = n ->
  forall i, (i < n)%coq_nat -> Rplus (List.nth i x R0) (List.nth i (vlist n v) R0) = List.nth i (vlist n (fun i => vec x i + v i)) R0.
Proof. by move=> L i /ssrnat.ltP il; rewrite !nth_vlist. Qed.
