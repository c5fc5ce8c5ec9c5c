From mathcomp Require Import all_ssreflect all_fingroup all_algebra.
From Verif Require Import LU_model LU_spec LU_proofs Linear_model Linear_spec Zmod_tac.
Set Implicit Arguments.
Unset Strict Implicit.
Unset Printing Implicit Defensive.
Import GRing.Theory.
Local Open Scope ring_scope.

Lemma col_mx_inj (F : fieldType) m1 m2 n (A A' : 'M[F]_(m1, n)) (B B' : 'M[F]_(m2, n)) :
  col_mx A B = col_mx A' B' -> A = A' /\ B = B'.
Proof. exact: eq_col_mx. Qed.

(** equations of a matrix with four block rows *)
Lemma block4 (F : fieldType) (k1 k2 k3 k4 l1 l2 l3 l4 : nat)
    (A11 : 'M[F]_(k1, l1)) (A12 : 'M[F]_(k1, l2)) (A13 : 'M[F]_(k1, l3)) (A14 : 'M[F]_(k1, l4))
    (A21 : 'M[F]_(k2, l1)) (A22 : 'M[F]_(k2, l2)) (A23 : 'M[F]_(k2, l3)) (A24 : 'M[F]_(k2, l4))
    (A31 : 'M[F]_(k3, l1)) (A32 : 'M[F]_(k3, l2)) (A33 : 'M[F]_(k3, l3)) (A34 : 'M[F]_(k3, l4))
    (A41 : 'M[F]_(k4, l1)) (A42 : 'M[F]_(k4, l2)) (A43 : 'M[F]_(k4, l3)) (A44 : 'M[F]_(k4, l4))
    (x : 'cV[F]_(l1 + (l2 + (l3 + l4)))) b1 b2 b3 b4 :
  let x1 := usubmx x in let x2 := usubmx (dsubmx x) in
  let x3 := usubmx (dsubmx (dsubmx x)) in let x4 := dsubmx (dsubmx (dsubmx x)) in
  col_mx (row_mx A11 (row_mx A12 (row_mx A13 A14)))
 (col_mx (row_mx A21 (row_mx A22 (row_mx A23 A24)))
 (col_mx (row_mx A31 (row_mx A32 (row_mx A33 A34)))
         (row_mx A41 (row_mx A42 (row_mx A43 A44))))) *m x = col_mx b1 (col_mx b2 (col_mx b3 b4)) <->
  [/\ A11 *m x1 + (A12 *m x2 + (A13 *m x3 + A14 *m x4)) = b1,
      A21 *m x1 + (A22 *m x2 + (A23 *m x3 + A24 *m x4)) = b2,
      A31 *m x1 + (A32 *m x2 + (A33 *m x3 + A34 *m x4)) = b3
    & A41 *m x1 + (A42 *m x2 + (A43 *m x3 + A44 *m x4)) = b4].
Proof.
move=> x1 x2 x3 x4.
rewrite -{1}(vsubmxK x) -{1}(vsubmxK (dsubmx x)) -{1}(vsubmxK (dsubmx (dsubmx x))).
rewrite !mul_col_mx !mul_row_col; split => [/eq_col_mx [-> /eq_col_mx [-> /eq_col_mx [-> ->]]] //|].
by move=> [-> -> -> ->].
Qed.


(** a square matrix is invertible iff only zero is mapped to zero *)
Lemma unit_kernel (F : fieldType) k (M : 'M[F]_k) :
  (forall r : 'cV[F]_k, M *m r = 0 -> r = 0) -> M \in unitmx.
Proof.
move=> H; rewrite -unitmx_tr -row_free_unit -kermx_eq0; apply/eqP/row_matrixP => i.
rewrite row0; apply: trmx_inj; rewrite trmx0; apply: H.
by apply: trmx_inj; rewrite trmx_mul trmxK trmx0 -row_mul mulmx_ker row0.
Qed.

(** ** Fullspace *)
Section Full.
Variables (F : fieldType) (nb nn np : nat).
Implicit Types (J : cmat F nb nn np) (a u : cvec F nb nn np).
Lemma full_rhsK a : full_result (full_rhs a) = a.
Proof. by case: a => xs p w; rewrite /full_result /full_rhs /= !(col_mxKu, col_mxKd) vsubmxK. Qed.
Lemma full_resultK r : full_rhs (full_result r) = r :> 'cV[F]_(nb + (nn + (np + nb))).
Proof. by rewrite /full_result /full_rhs /= !(col_mxKu, col_mxKd) !vsubmxK. Qed.
Lemma full_rhs0 : full_rhs (czero F nb nn np) = 0.
Proof. by rewrite /full_rhs /= !linear0 !col_mx0. Qed.

Lemma full_eqs J a u : full_matrix J *m full_rhs u = full_rhs a <-> canonical_eqs J a u.
Proof.
rewrite /full_matrix {2}/full_rhs block4 /full_rhs !(col_mxKu, col_mxKd) /canonical_eqs.
have -> : cHss J *m vxs u = col_mx (ulsubmx (cHss J) *m usubmx (vxs u) + ursubmx (cHss J) *m dsubmx (vxs u))
                                   (dlsubmx (cHss J) *m usubmx (vxs u) + drsubmx (cHss J) *m dsubmx (vxs u)).
  by rewrite -mul_block_col submxK vsubmxK.
have -> : cHsp J *m vp u = col_mx (usubmx (cHsp J) *m vp u) (dsubmx (cHsp J) *m vp u) by rewrite -mul_col_mx vsubmxK.
have -> : cVps J *m vxs u = lsubmx (cVps J) *m usubmx (vxs u) + rsubmx (cVps J) *m dsubmx (vxs u).
  by rewrite -mul_row_col hsubmxK vsubmxK.
rewrite !add_col_mx !mul1mx !mul0mx !addr0 !addrA.
split=> [[-> -> -> ->]|[E -> ->]]; first by rewrite vsubmxK.
by rewrite -E col_mxKu col_mxKd.
Qed.


Lemma nonsingularE J : nonsingular J <-> full_matrix J \in unitmx.
Proof.
split=> [N|U u].
  apply: unit_kernel => r E; rewrite -[r]full_resultK.
  by rewrite (N (full_result r)) ?full_rhs0 //; apply/full_eqs; rewrite full_resultK full_rhs0.
move/full_eqs; rewrite full_rhs0 => E.
by rewrite -[u]full_rhsK -(mulKmx U (full_rhs u)) E mulmx0 -full_rhs0 full_rhsK.
Qed.

(** the canonical equations determine the vector *)
Lemma eqs_unique J a u v : nonsingular J -> canonical_eqs J a u -> canonical_eqs J a v -> u = v.
Proof.
move/nonsingularE => U /full_eqs Eu /full_eqs Ev.
by rewrite -[u]full_rhsK -[v]full_rhsK -(mulKmx U (full_rhs u)) -(mulKmx U (full_rhs v)) Eu Ev.
Qed.
End Full.

(** ** Nullspace *)
Section Null.
Variables (F : fieldType) (nbe nbi nn np : nat).
Implicit Types (J : cmat F (nbe + nbi) nn np) (a : cvec F (nbe + nbi) nn np).
Lemma null_eqs J a r : nM (null_decompose J) *m r = null_rhs (null_decompose J) a ->
  canonical_eqs J a (null_finish (null_decompose J) a r).
Proof.
rewrite /null_finish; move/block4 => /=; set xbe := usubmx r; set xns := usubmx (dsubmx r).
set p := usubmx (dsubmx (dsubmx r)); set wbe := dsubmx (dsubmx (dsubmx r)) => -[E1 E2 E3 E4].
move: E1 E2 E3 E4; rewrite /null_abi /null_decompose /=; clearbody xbe xns p wbe; clear.
case: J a => Hss Hsp Vps Vpp S Sp [xs pp w] /=.
rewrite -(submxK Hss) -(vsubmxK Hsp) -(hsubmxK Vps) -(vsubmxK S) -(vsubmxK Sp) -(vsubmxK xs) -(vsubmxK w).
move: (ulsubmx Hss) (ursubmx Hss) (dlsubmx Hss) (drsubmx Hss) => A B C Hnn.
rewrite -(submxK A) -(vsubmxK B) -(hsubmxK C) -(vsubmxK (usubmx Hsp)) -(hsubmxK (lsubmx Vps)) -(vsubmxK (usubmx xs)).
rewrite !(block_mxKul, block_mxKur, block_mxKdl, block_mxKdr, col_mxKu, col_mxKd, row_mxKl, row_mxKr).
move: (ulsubmx A) (ursubmx A) (dlsubmx A) (drsubmx A) (usubmx B) (dsubmx B) (lsubmx C) (rsubmx C) => A1 A2 A3 A4 B1 B2 C1 C2.
move: (usubmx (usubmx Hsp)) (dsubmx (usubmx Hsp)) (dsubmx Hsp) (lsubmx (lsubmx Vps)) (rsubmx (lsubmx Vps)) (rsubmx Vps) => D1 D2 D3 V1 V2 V3.
move: (usubmx S) (dsubmx S) (usubmx Sp) (dsubmx Sp) => S1 S2 P1 P2.
move: (usubmx (usubmx xs)) (dsubmx (usubmx xs)) (dsubmx xs) (usubmx w) (dsubmx w) => a1 a2 a3 w1 w2.
move=> /(canLR (subrK _)) E1 /(canLR (subrK _)) /(canLR (subrK _)) E2 /(canLR (subrK _)) E3 E4; rewrite /canonical_eqs /=.
rewrite -E3 -E4 -E2 -E1 tr_col_mx !(mul_block_col, mul_col_mx, mul_row_col, add_col_mx, mul_mx_row, block_mxEv).
rewrite !(col_mxKu, col_mxKd, mul_mx_row, mul_row_col, mul_col_mx, add_col_mx).
by split; [congr (col_mx (col_mx _ _) _) | | congr col_mx]; mxdist; zmod.
Qed.


(** the reduced matrix is nonsingular if the canonical system is *)
Lemma nonsingular_null J : nonsingular J -> nM (null_decompose J) \in unitmx.
Proof.
move=> N; apply: unit_kernel => r E.
have /N : canonical_eqs J (czero F _ _ _) (null_finish (null_decompose J) (czero F _ _ _) r).
  by apply: null_eqs; rewrite E /null_rhs /null_abi /= !(linear0, mulmx0, subr0, col_mx0).
move=> H; have [/= H1 H2 H3] : [/\ vxs (null_finish (null_decompose J) (czero F _ _ _) r) = 0,
   vp (null_finish (null_decompose J) (czero F _ _ _) r) = 0 & vw (null_finish (null_decompose J) (czero F _ _ _) r) = 0] by rewrite H.
have := congr1 (usubmx \o usubmx) H1; have := congr1 dsubmx H1; have := congr1 usubmx H3.
rewrite /= !(col_mxKu, col_mxKd, linear0) => K1 K2 K3.
by rewrite -[r]vsubmxK -[dsubmx r]vsubmxK -[dsubmx (dsubmx r)]vsubmxK K1 K2 K3 H2 !col_mx0.
Qed.
End Null.

(** ** Rangespace *)
Section Range.
Variables (F : fieldType) (nbe nbi nne nni np : nat).
Implicit Types (J : cmat F (nbe + nbi) (nne + nni) np) (a : cvec F (nbe + nbi) (nne + nni) np).

Lemma dg_einv k (v : 'cV[F]_k) : (forall i, v i 0 != 0) -> dg v *m dg (einv v) = 1%:M.
Proof.
move=> H; apply/matrixP => i j; rewrite mul_diag_mx !mxE; case: (i =P j) => [->|_]; last by rewrite !mulr0n mulr0.
by rewrite !mulr1n mulfV.
Qed.
Lemma dg_tr k (v : 'cV[F]_k) : (dg v)^T = dg v.
Proof. exact: tr_diag_mx. Qed.
Lemma diagE k (M : 'M[F]_k) : is_diag M -> M = dg (diagof M).
Proof.
move=> H; apply/matrixP => i j; rewrite !mxE; case: (i =P j) => [->|/eqP ij]; first by rewrite mulr1n.
by rewrite mulr0n H.
Qed.
Lemma dg_col k l (v : 'cV[F]_(k + l)) : dg v = block_mx (dg (usubmx v)) 0 0 (dg (dsubmx v)).
Proof.
rewrite -{1}(vsubmxK v); apply/matrixP => i j; rewrite !mxE.
by case: (split_ordP i) => i' ->; case: (split_ordP j) => j' ->;
  rewrite ?(unsplitK (inl _)) ?(unsplitK (inr _)) !mxE ?(unsplitK (inl _)) ?(unsplitK (inr _)) ?(inj_eq (@lshift_inj _ _)) ?(inj_eq (@rshift_inj _ _)) ?eq_lrshift ?eq_rlshift ?mxE.
Qed.

Lemma range_eqs J a r :
  is_diag (cHss J) -> (forall i, range_Hbebe J i 0 != 0) -> (forall i, range_Hnene J i 0 != 0) ->
  range_matrix J *m r = range_rhs J a ->
  let u := range_finish J a r in
  let d := (dg (einv (range_Hbebe J)) + usubmx (lsubmx (cS J)) *m dg (einv (range_Hnene J)) *m (usubmx (lsubmx (cS J)))^T) *m usubmx (vw u) in
  [/\ cHss J *m vxs u + cHsp J *m vp u + col_mx (vw u) ((cS J)^T *m vw u) = vxs a,
      cVps J *m vxs u + cVpp J *m vp u = vp a
    & usubmx (vxs u) + cS J *m dsubmx (vxs u) + cSp J *m vp u + col_mx (d + d) 0 = vw a].
Proof.
move=> D Hbe Hne; rewrite /range_finish /range_matrix /range_rhs => /block4 /=.
set xbi := usubmx (dsubmx r); set p := usubmx r; set wbe := usubmx (dsubmx (dsubmx r)); set xni := dsubmx (dsubmx (dsubmx r)).
clearbody xbi p wbe xni.
have := dg_einv Hbe; have := dg_einv Hne; rewrite /range_T /range_abe /range_ane.
move: (diagE D); rewrite -/(range_Hs J) dg_col (dg_col (usubmx _)) (dg_col (dsubmx _)).
rewrite -/(range_Hbebe J) -/(range_Hbibi J) -/(range_Hnene J) -/(range_Hnini J).
move: (dg (einv (range_Hbebe J))) (dg_tr (einv (range_Hbebe J))) => Ib TIb.
move: (dg (einv (range_Hnene J))) (dg_tr (einv (range_Hnene J))) => In TIn.
move: (dg (range_Hbebe J)) (dg (range_Hbibi J)) (dg (range_Hnene J)) (dg (range_Hnini J)) => Hb Hi Hn Hj.
case: J a {D Hbe Hne} => Hss Hsp Vps Vpp S Sp [xs pp w] /= -> Hn1 Hb1.
rewrite -(vsubmxK Hsp) -(vsubmxK (usubmx Hsp)) -(vsubmxK (dsubmx Hsp)) -(hsubmxK Vps) -(hsubmxK (lsubmx Vps)) -(hsubmxK (rsubmx Vps)).
rewrite -(hsubmxK S) -(vsubmxK (lsubmx S)) -(vsubmxK (rsubmx S)) -(vsubmxK Sp) -(vsubmxK xs) -(vsubmxK (usubmx xs)) -(vsubmxK (dsubmx xs)) -(vsubmxK w).
rewrite !(col_mxKu, col_mxKd, row_mxKl, row_mxKr).
move: (usubmx (usubmx Hsp)) (dsubmx (usubmx Hsp)) (usubmx (dsubmx Hsp)) (dsubmx (dsubmx Hsp)) => Hbep Hbip Hnep Hnip.
move: (lsubmx (lsubmx Vps)) (rsubmx (lsubmx Vps)) (lsubmx (rsubmx Vps)) (rsubmx (rsubmx Vps)) => Vbe Vbi Vne Vni.
move: (usubmx (lsubmx S)) (dsubmx (lsubmx S)) (usubmx (rsubmx S)) (dsubmx (rsubmx S)) => Sbene Sbine Sbeni Sbini.
move: (usubmx Sp) (dsubmx Sp) (usubmx (usubmx xs)) (dsubmx (usubmx xs)) (usubmx (dsubmx xs)) (dsubmx (dsubmx xs)) (usubmx w) (dsubmx w)
  => Sbep Sbip abe abi ane ani wbe0 wbi0.
have -> : col_mx Sbene Sbine *m (col_mx Sbene Sbine *m In)^T = block_mx (Sbene *m In *m Sbene^T) (Sbene *m In *m Sbine^T) (Sbine *m In *m Sbene^T) (Sbine *m In *m Sbine^T).
  by rewrite trmx_mul TIn tr_col_mx mul_mx_row mul_col_row !mulmxA.
rewrite !(block_mxKul, block_mxKur, block_mxKdl, block_mxKdr) => -[E1 E2 E3 /(canLR (subrK _)) <-].
move/(canLR (addrK _))/(canLR (subrK _))/(canLR (subrK _)): E1 => <-.
move/(canLR (addrK _))/(canLR (subrK _)): E2 => <-.
move/(canLR (addrK _))/(canLR (subrK _))/(canLR (subrK _)): E3 => <-.
rewrite tr_row_mx !tr_col_mx !(mul_block_col, mul_col_mx, mul_row_col, add_col_mx, mul_mx_row, mul0mx, addr0, add0r).
split; [congr (col_mx (col_mx _ _) (col_mx _ _)) | | congr col_mx]; mxdist; rewrite ?Hb1 ?Hn1 ?mul1mx ?addr0; zmod.
Qed.
End Range.

Lemma fullspace_solves (F : realFieldType) nb nn np (eps : F) f (J : cmat F nb nn np) a : 0 <= eps -> full_piv (full_matrix J) f ->
  full_matrix J \in unitmx -> resolved eps f (full_rhs a) ->
  exists2 u, fullspace eps f a = Some u & canonical_eqs J a u.
Proof.
move=> e0 fp U O; have [r E H] := lu_solve_unit e0 fp U O; exists (full_result r); first by rewrite /fullspace E.
by apply/full_eqs; rewrite full_resultK.
Qed.

Lemma nullspace_solves (F : realFieldType) nbe nbi nn np (eps : F) f (J : cmat F (nbe + nbi) nn np) a : 0 <= eps -> full_piv (nM (null_decompose J)) f ->
  nM (null_decompose J) \in unitmx -> resolved eps f (null_rhs (null_decompose J) a) ->
  exists2 u, nullspace eps f J a = Some u & canonical_eqs J a u.
Proof.
move=> e0 fp U O; have [r E H] := lu_solve_unit e0 fp U O; eexists; first by rewrite /nullspace E.
exact: null_eqs.
Qed.

Lemma rangespace_solves (F : realFieldType) nbe nbi nne nni np (eps : F) f (J : cmat F (nbe + nbi) (nne + nni) np) a :
  0 <= eps -> full_piv (range_matrix J) f ->
  range_matrix J \in unitmx -> resolved eps f (range_rhs J a) ->
  exists2 r, rangespace eps f J a = Some (range_finish J a r) & range_matrix J *m r = range_rhs J a.
Proof.
by move=> e0 fp U O; have [r E H] := lu_solve_unit e0 fp U O; exists r => //; rewrite /rangespace E.
Qed.
