(** Linear systems of which LU::solve discards every equation. *)
From mathcomp Require Import all_ssreflect all_fingroup all_algebra.
From Verif Require Import LU_model LU_spec LU_proofs P_LU Linear_model Newton_model.
Set Implicit Arguments.
Unset Strict Implicit.
Unset Printing Implicit Defensive.
Import Order.TTheory GRing.Theory Num.Theory.
Local Open Scope ring_scope.

Section Dropped.
Variables (F : realFieldType) (eps : F).

Lemma drop_fold n (M : 'M[F]_n) (y : 'cV[F]_n) (l : seq 'I_n) (s : luws F n) : uniq l ->
  (forall k, `|M k k| <= eps * `|y k 0|) ->
  (forall k, k \in l -> wU s k k = M k k /\ wy s k 0 = y k 0) -> (forall k, k \notin l -> wU s k k = 1 /\ wy s k 0 = 0) ->
  forall k, wU (foldl (@assemble_step F eps n) s l) k k = 1 /\ wy (foldl (@assemble_step F eps n) s l) k 0 = 0.
Proof.
elim: l s => [|k l IH] s /=; first by move=> _ _ _ H k; apply: H.
move=> /andP [kl ul] H H1 H2.
have [E1 E2] : wU s k k = M k k /\ wy s k 0 = y k 0 by apply: H1; rewrite inE eqxx.
rewrite drop_step ?E1 ?E2 //; apply: IH => // j jl; rewrite /= !mxE.
  have jk : j != k by apply: contraNneq kl => <-.
  by rewrite (negbTE jk) /=; apply: H1; rewrite inE jl orbT.
by case: (eqVneq j k) => [->|jk] //=; apply: H2; rewrite inE negb_or jk.
Qed.
Lemma all_dropped n (f : lufac F n) (b : 'cV[F]_n) : n <> 1%N ->
  (forall k, `|fM f k k| <= eps * `|forward f b k 0|) -> lu_solve eps f b = Some 0.
Proof.
move=> /eqP n1 H; rewrite /lu_solve /lu_solve_full /assembleU (negbTE n1) /=.
have D := drop_fold (l := rev (enum 'I_n)) (s := LUWs (fM f) (forward f b) (fun=> true) n) _ H.
have {}D k := D (eq_trans (rev_uniq _) (enum_uniq _)) (fun _ _ => conj erefl erefl) (fun j jn => False_ind _ (negP jn (eq_trans (mem_rev _ _) (mem_enum _ _)))) k.
set s := foldl _ _ _ in D *.
rewrite /upper_solve; case: ifP => [/existsP [k]|_]; first by rewrite (D k).1 oner_eq0.
have -> : wy s = 0 by apply/colP => k; rewrite (D k).2 mxE.
by rewrite mulmx0 /=; congr Some; apply/colP => i; rewrite !mxE.
Qed.

(** The factors of the identity of order 2 *)
Lemma factors2 n (A : 'M[F]_n) (f : lufac F n) : n = 2%N -> A = 1%:M -> full_piv A f -> fM f = 1%:M.
Proof.
move=> n2; subst n => -> [/matrixP E Z]; set M := fM f in E Z *.
have E' i j : (1%:M : 'M[F]_2) (fP f i) (fQ f j) = \sum_k unit_lower M i k * upper M k j by have := E i j; rewrite !mxE.
set i0 := ord0 : 'I_2; set i1 := lift ord0 ord0 : 'I_2.
have E00 := E' i0 i0; have E01 := E' i0 i1; have E10 := E' i1 i0; have E11 := E' i1 i1.
rewrite !big_ord_recl !big_ord0 !mxE /= in E00 E01 E10 E11.
have I2 (i : 'I_2) : i = i0 \/ i = i1 by case: i => -[|[|//]] Hi; [left|right]; apply: val_inj.
have N (p : 'S_2) : p i1 = (if p i0 == i0 then i1 else i0).
  have J : p i1 != p i0 by rewrite (inj_eq perm_inj).
  by case: (I2 (p i0)) J => ->; case: (I2 (p i1)) => ->.
rewrite !N in E00 E01 E10 E11.
have M0 : M i0 i0 = 0 -> False.
  move=> M0; have Z' := Z i0 M0; move: E10 E11 E00 E01; rewrite -!/i0 -!/i1 !Z' // !(mulr0, mul0r, addr0, add0r).
  by case: (I2 (fP f i0)) => ->; case: (I2 (fQ f i0)) => -> /=; rewrite ?eqxx /= => H1 H2 H3 H4; move: H1 H2 H3 H4 => /eqP; rewrite ?oner_eq0 // => _ /eqP; rewrite ?oner_eq0 //.
move: E00 E01 E10 E11; rewrite -!/i0 -!/i1 !(mulr0, mul0r, mul1r, mulr1, addr0, add0r).
case: (I2 (fP f i0)) => ->; case: (I2 (fQ f i0)) => -> /= E00; try by case: M0.
  move=> /esym E01 E10 E11.
  have {}E10 : M i1 i0 = 0 by move/esym/eqP: E10; rewrite -E00 mulr1 => /eqP.
  rewrite E01 mulr0 add0r in E11.
  by apply/matrixP => i j; rewrite mxE; case: (I2 i) => ->; case: (I2 j) => ->.
move=> /esym E01 E10 E11.
have {}E10 : M i1 i0 = 0 by move/esym/eqP: E10; rewrite -E00 mulr1 => /eqP.
rewrite E01 mulr0 add0r in E11.
by apply/matrixP => i j; rewrite mxE; case: (I2 i) => ->; case: (I2 j) => ->.
Qed.
Lemma identity2_dropped n (A : 'M[F]_n) (f : lufac F n) (b : 'cV[F]_n) : n = 2%N -> A = 1%:M -> full_piv A f ->
  (forall k, 1 <= eps * `|b k 0|) -> lu_solve eps f b = Some 0.
Proof.
move=> n2 A1 fp H; apply: all_dropped; first by rewrite n2.
move=> k; rewrite /forward (factors2 n2 A1 fp) mxE eqxx normr1 unit_lower1 invmx1 mul1mx mxE; exact: H.
Qed.
End Dropped.

Section Canonical.
Variables (F : realFieldType) (eps : F).
Lemma empty_mx m n (A B : 'M[F]_(m, n)) : (m = 0 \/ n = 0)%N -> A = B.
Proof. by move=> H; apply/matrixP => i j; exfalso; case: i => i il; case: j => j jl; case: H => H; [move: il | move: jl]; rewrite H. Qed.

(** min (x0^2 + x1^2)/2 without constraints: the full-space and the null-space matrix are the identity *)
Lemma full_matrix_identity nb nn np (J : cmat F nb nn np) : nb = 0%N -> np = 0%N -> cHss J = 1%:M -> full_matrix J = 1%:M.
Proof.
move=> b0 p0 HJ; subst nb np; rewrite /full_matrix HJ; apply/matrixP => i j.
case: (split_ordP i) => [[]//|{}i ->]; case: (split_ordP i) => [{}i ->|[]//].
case: (split_ordP j) => [[]//|{}j ->]; case: (split_ordP j) => [{}j ->|[]//].
by rewrite col_mxEd col_mxEu row_mxEr row_mxEl !mxE !(inj_eq (@rshift_inj _ _), inj_eq (@lshift_inj _ _)).
Qed.
Lemma null_matrix_identity nbe nbi nn np (J : cmat F (nbe + nbi) nn np) : nbe = 0%N -> nbi = 0%N -> np = 0%N -> cHss J = 1%:M -> nM (null_decompose J) = 1%:M.
Proof.
move=> b0 b1 p0 HJ; subst nbe nbi np; rewrite /null_decompose HJ; cbn [nM]; apply/matrixP => i j.
case: (split_ordP i) => [[]//|{}i ->]; case: (split_ordP i) => [{}i ->|[]//].
case: (split_ordP j) => [[]//|{}j ->]; case: (split_ordP j) => [{}j ->|[]//].
by rewrite col_mxEd col_mxEu row_mxEr row_mxEl !mxE !(inj_eq (@rshift_inj _ _), inj_eq (@lshift_inj _ _)) !big_ord0 !subr0.
Qed.
Lemma zero_cvec nn (u : cvec F (0 + 0) nn 0) : vxs u = 0 -> u = CVec 0 0 0.
Proof. by case: u => x p w /= ->; congr CVec; apply: empty_mx; left. Qed.
Lemma full_dropped np nb nn (J : cmat F nb nn np) a f : nb = 0%N -> np = 0%N -> nn = 2%N -> cHss J = 1%:M ->
  (forall i, 1 <= eps * `|vxs a i 0|) -> full_piv (full_matrix J) f -> fullspace eps f a = Some (CVec 0 0 0).
Proof.
move=> b0 p0 n2 HJ H fp; subst nb np.
have D : lu_solve eps f (full_rhs a) = Some 0.
  apply: (identity2_dropped _ (full_matrix_identity _ _ HJ) fp) => //; first by rewrite n2.
  move=> k; rewrite /full_rhs; case: (split_ordP k) => [[]//|{}k ->]; case: (split_ordP k) => [{}k ->|[]//].
  by rewrite col_mxEd col_mxEu mxE.
rewrite /fullspace D /=; congr Some; apply: zero_cvec.
by apply/colP => k; case: (split_ordP k) => [[]//|{}k ->]; rewrite col_mxEd !mxE.
Qed.
Lemma null_dropped np nbe nbi nn (J : cmat F (nbe + nbi) nn np) a f : nbe = 0%N -> nbi = 0%N -> np = 0%N -> nn = 2%N -> cHss J = 1%:M ->
  (forall i, 1 <= eps * `|vxs a i 0|) -> full_piv (nM (null_decompose J)) f -> nullspace eps f J a = Some (CVec 0 0 0).
Proof.
move=> b0 b1 p0 n2 HJ H fp; subst nbe nbi np.
have D : lu_solve eps f (null_rhs (null_decompose J) a) = Some 0.
  apply: (identity2_dropped _ (null_matrix_identity _ _ _ HJ) fp) => //; first by rewrite n2.
  move=> k; rewrite /null_rhs; case: (split_ordP k) => [[]//|{}k ->]; case: (split_ordP k) => [{}k ->|[]//].
  by rewrite col_mxEd col_mxEu !mxE !big_ord0 !subr0.
rewrite /nullspace D /=; congr Some; apply: zero_cvec.
by apply/colP => k; case: (split_ordP k) => [[]//|{}k ->]; rewrite col_mxEd !mxE.
Qed.
Variable lu : forall n, 'M[F]_n -> lufac F n.
Hypothesis LU : forall n (A : 'M[F]_n), full_piv A (lu A).
Lemma solve_dropped meth np nbe nbi nne nni (J : cmat F (nbe + nbi) (nne + nni) np) a : meth <> Rangespace ->
  nbe = 0%N -> nbi = 0%N -> np = 0%N -> (nne + nni)%N = 2%N -> cHss J = 1%:M -> (forall i, 1 <= eps * `|vxs a i 0|) ->
  solve_canonical lu eps meth J a = Some (CVec 0 0 0).
Proof.
move=> NR b0 b1 p0 n2 HJ H; rewrite /solve_canonical; case: meth NR => // _.
  by apply: (full_dropped _ p0 n2 HJ H); rewrite ?b0 ?b1.
exact: (null_dropped b0 b1 p0 n2 HJ H).
Qed.
End Canonical.
