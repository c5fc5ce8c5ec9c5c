(** Lemmas for C100: the master problem and the calculation do not depend on the memory. *)
From Coq Require Import List PeanoNat Reals Lra Lia FunctionalExtensionality.
From mathcomp Require Import all_ssreflect all_algebra.
From Verif Require Import Num Num_facts Index_model Index_spec Num_rf R_rf Echelon_model LU_model Linear_model Canonical_model.
From Verif Require Import Residual_model EchelonO_model Loop_model Loop_spec P_Loop Wrapper_model Wrapper_spec Wrapper_proofs End_model End_spec End_proofs Newton_model P_EchelonO Reuse_model Reuse_spec.
Set Implicit Arguments.
Unset Strict Implicit.
Unset Printing Implicit Defensive.

Definition tidy (A : mat R) : Prop := nothing_beyond (m_rows A * m_cols A) (m_mem A).

Lemma tidy_mresize f (A : mat R) r c : tidy A -> nothing_beyond (r * c) f -> tidy (mresize f A r c).
Proof.
rewrite /mresize => TA TF; case E: (Nat.eqb _ _) => //.
by move/Nat.eqb_eq: E; rewrite /tidy !multE; cbn [m_rows m_cols m_mem] => ->.
Qed.

Lemma tidy_mput (A : mat R) r0 c0 nr nc src : tidy A -> (r0 + nr <= m_rows A)%coq_nat -> (c0 + nc <= m_cols A)%coq_nat ->
  tidy (mput A r0 c0 nr nc src).
Proof.
move=> TA HR HC k; rewrite /mput; cbn [m_rows m_cols m_mem] => Hk.
case E: (_ && _); last exact: TA.
exfalso; move: E => /andP [/andP [/andP [/Nat.leb_le E1 /Nat.ltb_lt E2] /Nat.leb_le E3] /Nat.ltb_lt E4].
rewrite -plusE in HR; rewrite -plusE in HC.
have RP : m_rows A <> O by lia.
have D := Nat.div_mod k (m_rows A) RP; have B := Nat.mod_upper_bound k _ RP.
rewrite -multE in Hk; set q := Nat.div _ _ in D E3 E4; set t := Nat.modulo _ _ in D B E1 E2.
have H := Nat.mul_le_mono_l (S q) (m_cols A) (m_rows A) ltac:(lia).
by lia.
Qed.

Lemma tidy_Ax f old d A G : tidy old -> nothing_beyond (ny d * nxbar d) f -> tidy (master_Ax f old d A G).
Proof.
move=> TO TF; rewrite /master_Ax.
have T0 := tidy_mresize TO TF; set M0 := mresize _ _ _ _ in T0 *.
have E1 : m_rows M0 = ny d by rewrite /M0 /mresize; case: Nat.eqb.
have E2 : m_cols M0 = nxbar d by rewrite /M0 /mresize; case: Nat.eqb.
case: Nat.eqb; first exact: T0.
repeat apply: tidy_mput => //; cbn [m_rows m_cols mput]; rewrite -?plusE -?minusE ?E1 ?E2 /ny /nxbar; lia.
Qed.
Lemma tidy_Ap f old d A G : tidy old -> nothing_beyond (ny d * d_p d) f -> tidy (master_Ap f old d A G).
Proof.
move=> TO TF; rewrite /master_Ap.
have T0 := tidy_mresize TO TF; set M0 := mresize _ _ _ _ in T0 *.
have E1 : m_rows M0 = ny d by rewrite /M0 /mresize; case: Nat.eqb.
have E2 : m_cols M0 = d_p d by rewrite /M0 /mresize; case: Nat.eqb.
case: Nat.eqb; first exact: T0.
by apply: tidy_mput => //; rewrite -?plusE ?E1 ?E2; lia.
Qed.
Lemma tidy_bc f old d A G : tidy old -> nothing_beyond (ny d * d_c d) f -> tidy (master_bc f old d A G).
Proof.
move=> TO TF; rewrite /master_bc.
have T0 := tidy_mresize TO TF; set M0 := mresize _ _ _ _ in T0 *.
have E1 : m_rows M0 = ny d by rewrite /M0 /mresize; case: Nat.eqb.
have E2 : m_cols M0 = d_c d by rewrite /M0 /mresize; case: Nat.eqb.
repeat apply: tidy_mput => //; cbn [m_rows m_cols mput]; rewrite -?plusE -?minusE ?E1 ?E2 /ny; lia.
Qed.

Lemma used_tidy k : used k -> [/\ tidy (k_Ax k), tidy (k_Ap k) & tidy (k_bc k)].
Proof.
elim=> [{}k [-> [-> [-> _]]]|{}k g P M res err hist m _ [T1 T2 T3] [G1 [G2 G3]] U]; first by split.
cbn [k_Ax k_Ap k_bc]; rewrite (Meq _ _ _ _ _ _ _ _ U).
by split; [apply: tidy_Ax | apply: tidy_Ap | apply: tidy_bc].
Qed.

(** two matrices are equal when they agree at the positions that exist *)
Lemma mat_eq (A B : mat R) : m_rows A = m_rows B -> m_cols A = m_cols B -> tidy A -> tidy B ->
  (forall i j, (i < m_rows A)%coq_nat -> (j < m_cols A)%coq_nat -> mget A i j = mget B i j) -> A = B.
Proof.
case: A B => [r c f] [r' c' f'] /= E1 E2; rewrite -{}E1 -{}E2 /tidy /nothing_beyond /mget; cbn [m_rows m_cols m_mem] => TA TB H.
congr Mat; apply: functional_extensionality => k.
case: (Nat.le_gt_cases (r * c) k) => Hk; first by rewrite TA ?TB.
rewrite -multE in Hk; have RP : r <> O by lia.
have D := Nat.div_mod k r RP; have B := Nat.mod_upper_bound k r RP.
have := H (k mod r)%coq_nat (k / r)%coq_nat B.
have -> : Nat.add (k mod r)%coq_nat (Nat.mul (k / r)%coq_nat r) = k by lia.
apply.
by apply: Nat.div_lt_upper_bound.
Qed.

Lemma mget_mput (A : mat R) r0 c0 nr nc src i j : (i < m_rows A)%coq_nat ->
  mget (mput A r0 c0 nr nc src) i j =
  if Nat.leb r0 i && Nat.ltb i (Nat.add r0 nr) && Nat.leb c0 j && Nat.ltb j (Nat.add c0 nc) then src (i - r0)%N (j - c0)%N else mget A i j.
Proof.
move=> Hi; rewrite /mget /mput; cbn [m_rows m_cols m_mem].
have -> : Nat.modulo (Nat.add i (Nat.mul j (m_rows A))) (m_rows A) = i by rewrite Nat.mod_add ?Nat.mod_small //; lia.
have -> : Nat.div (Nat.add i (Nat.mul j (m_rows A))) (m_rows A) = j by rewrite Nat.div_add ?Nat.div_small //; lia.
by [].
Qed.

Lemma rows_mresize f (A : mat R) r c : m_rows (mresize f A r c) = r. Proof. by rewrite /mresize; case: Nat.eqb. Qed.
Lemma cols_mresize f (A : mat R) r c : m_cols (mresize f A r c) = c. Proof. by rewrite /mresize; case: Nat.eqb. Qed.

Lemma Ax_any f f' old old' d A G : tidy old -> tidy old' -> nothing_beyond (ny d * nxbar d) f -> nothing_beyond (ny d * nxbar d) f' ->
  d_be d = O \/ d_bg d = O -> master_Ax f old d A G = master_Ax f' old' d A G.
Proof.
move=> TO TO' TF TF' B.
have R1 f0 old0 : m_rows (master_Ax f0 old0 d A G) = ny d by rewrite /master_Ax; case: ifP => _; cbn [mput m_rows]; rewrite rows_mresize.
have C1 f0 old0 : m_cols (master_Ax f0 old0 d A G) = nxbar d by rewrite /master_Ax; case: ifP => _; cbn [mput m_cols]; rewrite cols_mresize.
apply: mat_eq; rewrite ?R1 ?C1 //; try exact: tidy_Ax.
move=> i j Hi Hj.
have NZ : Nat.eqb (Nat.mul (ny d) (nxbar d)) 0 = false by apply/Nat.eqb_neq; rewrite ?multE -?multE; nia.
rewrite /master_Ax !rows_mresize !cols_mresize NZ !mget_mput; cbn [mput m_rows]; rewrite ?rows_mresize //.
case: ifP => // E3; case: ifP => // E2; case: ifP => // E1; exfalso.
have HJ : lt j (Nat.add (Nat.add (d_x d) (d_bg d)) (d_hg d)) := Hj.
have HI : lt i (Nat.add (d_be d) (d_bg d)) := Hi.
have EX : nxbar d = Nat.add (Nat.add (d_x d) (d_bg d)) (d_hg d) by [].
have EY : ny d = (d_be d + d_bg d)%coq_nat by [].
have L a b : (a <= b)%coq_nat -> Nat.leb a b by move/Nat.leb_le.
have T a b : (a < b)%coq_nat -> Nat.ltb a b by move/Nat.ltb_lt.
have [J1|J1] := Nat.lt_ge_cases j (d_x d).
  by move/negbT/negP: E1; apply; rewrite !L ?T // ?EY -?plusE; lia.
have [J2|J2] := Nat.lt_ge_cases j (d_x d + d_bg d)%coq_nat.
  by move/negbT/negP: E2; apply; rewrite !L ?T // ?EY -?plusE -?minusE; lia.
by move/negbT/negP: E3; apply; rewrite !L ?T // ?EY ?EX -?plusE -?minusE; lia.
Qed.

Lemma Ap_any f f' old old' d A G : tidy old -> tidy old' -> nothing_beyond (ny d * d_p d) f -> nothing_beyond (ny d * d_p d) f' ->
  master_Ap f old d A G = master_Ap f' old' d A G.
Proof.
move=> TO TO' TF TF'.
have R1 f0 old0 : m_rows (master_Ap f0 old0 d A G) = ny d by rewrite /master_Ap; case: ifP => _; cbn [mput m_rows]; rewrite rows_mresize.
have C1 f0 old0 : m_cols (master_Ap f0 old0 d A G) = d_p d by rewrite /master_Ap; case: ifP => _; cbn [mput m_cols]; rewrite cols_mresize.
apply: mat_eq; rewrite ?R1 ?C1 //; try exact: tidy_Ap.
move=> i j Hi Hj.
have NZ : Nat.eqb (Nat.mul (ny d) (d_p d)) 0 = false by apply/Nat.eqb_neq; rewrite ?multE -?multE; nia.
rewrite /master_Ap !rows_mresize !cols_mresize NZ !mget_mput; cbn [mput m_rows]; rewrite ?rows_mresize //.
case: ifP => // E1; exfalso; move/negbT/negP: E1; apply.
have L a b : (a <= b)%coq_nat -> Nat.leb a b by move/Nat.leb_le.
have T a b : (a < b)%coq_nat -> Nat.ltb a b by move/Nat.ltb_lt.
by rewrite !L ?T // -?plusE; lia.
Qed.

Lemma bc_any f f' old old' d A G : tidy old -> tidy old' -> nothing_beyond (ny d * d_c d) f -> nothing_beyond (ny d * d_c d) f' ->
  master_bc f old d A G = master_bc f' old' d A G.
Proof.
move=> TO TO' TF TF'.
have R1 f0 old0 : m_rows (master_bc f0 old0 d A G) = ny d by rewrite /master_bc; cbn [mput m_rows]; rewrite rows_mresize.
have C1 f0 old0 : m_cols (master_bc f0 old0 d A G) = d_c d by rewrite /master_bc; cbn [mput m_cols]; rewrite cols_mresize.
apply: mat_eq; rewrite ?R1 ?C1 //; try exact: tidy_bc.
move=> i j Hi Hj.
rewrite /master_bc !mget_mput; cbn [mput m_rows]; rewrite ?rows_mresize //.
case: ifP => // E2; case: ifP => // E1; exfalso.
have EY : ny d = (d_be d + d_bg d)%coq_nat by [].
have L a b : (a <= b)%coq_nat -> Nat.leb a b by move/Nat.leb_le.
have T a b : (a < b)%coq_nat -> Nat.ltb a b by move/Nat.ltb_lt.
have [J1|J1] := Nat.lt_ge_cases i (d_be d).
  by move/negbT/negP: E1; apply; rewrite !L ?T // ?EY -?plusE; lia.
by move/negbT/negP: E2; apply; rewrite !L ?T // ?EY -?plusE -?minusE; lia.
Qed.

(** the master problem does not depend on the memory *)
Lemma master_any k k' g g' (P : problem R xreal) : used k -> used k' -> fresh_for (p_dims P) g -> fresh_for (p_dims P) g' ->
  d_be (p_dims P) = O \/ d_bg (p_dims P) = O ->
  update_master (g_Ax g) (g_Ap g) (g_bc g) (k_Ax k) (k_Ap k) (k_bc k) P =
  update_master (g_Ax g') (g_Ap g') (g_bc g') (k_Ax k') (k_Ap k') (k_bc k') P.
Proof.
move=> /used_tidy [T1 T2 T3] /used_tidy [T1' T2' T3'] [G1 [G2 G3]] [G1' [G2' G3']] B; rewrite /update_master.
by rewrite (Ax_any _ _ T1 T1' G1 G1' B) (Ap_any _ _ T2 T2' G2 G2') (bc_any _ _ T3 T3' G3 G3').
Qed.

(** an update overwrites the residual and the error *)
Lemma w_update_res part M E (ech : E -> rawmx RF -> rawmx RF -> rawvec RF -> E * rwq RF) nonfinite e q r r' err err' u :
  w_update part M ech nonfinite (World e q r err) u = w_update part M ech nonfinite (World e q r' err') u.
Proof. by []. Qed.

Lemma m_solve_any part M E (ech : E -> rawmx RF -> rawmx RF -> rawvec RF -> E * rwq RF) nonfinite newton phi check fuel o e q r r' err err' hist hist' u res s :
  m_solve part M ech nonfinite newton phi check fuel o (World e q r err) hist u = Some (res, s) ->
  exists s', m_solve part M ech nonfinite newton phi check fuel o (World e q r' err') hist' u = Some (res, s') /\ s_u s' = s_u s /\ s_w s' = s_w s.
Proof.
move=> S.
have {}S : m_solve part M ech nonfinite newton phi check fuel o (World e q r' err') hist u = Some (res, s) by exact: S.
have [s' [S' [U [W _]]]] := C54_reuse_partial _ _ _ _ _ _ _ _ _ _ _ _ hist hist' _ _ _ S.
by exists s'.
Qed.
