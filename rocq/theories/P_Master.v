(** Property theorems C41. *)
From mathcomp Require Import all_ssreflect all_algebra.
From Verif Require Import Canonical_model Master_model.
Set Implicit Arguments.
Unset Strict Implicit.
Unset Printing Implicit Defensive.
Import Order.TTheory GRing.Theory Num.Theory.
Local Open Scope ring_scope.

Section Sums.
Variables (F : realFieldType) (nx : nat) (js ju : seq nat).
Hypothesis P : perm_eq (js ++ ju) (iota 0 nx).
Lemma js_uniq : uniq js /\ uniq ju.
Proof. by have := perm_uniq P; rewrite iota_uniq cat_uniq => /and3P [-> _ ->]. Qed.
Lemma js_disj i : i \in js -> (i \in ju) = false.
Proof.
have := perm_uniq P; rewrite iota_uniq cat_uniq => /and3P [_ /hasPn H _] ij.
by apply/negbTE/negP => /H; rewrite /= ij.
Qed.
Lemma js_ju i : (i < nx)%N -> (i \in js) = ~~ (i \in ju).
Proof.
move=> ix; have := perm_mem P i; rewrite mem_cat mem_iota /= add0n ix.
case E: (i \in js) => /=; last by move=> ->.
by rewrite (js_disj E).
Qed.
Lemma sum_js (f : nat -> F) : \sum_(j < nx) (if nat_of_ord j \in js then f j else 0) = \sum_(j <- js) f j.
Proof.
rewrite -big_mkcond -(big_mkord (fun j => j \in js) f) -big_filter; apply: perm_big; apply: uniq_perm.
- by rewrite filter_uniq // iota_uniq.
- by case: js_uniq.
- move=> i; rewrite mem_filter mem_index_iota /=; case E: (i \in js) => //=.
  by have := perm_mem P i; rewrite mem_cat E mem_iota.
Qed.
End Sums.

(** the entry of row i of a dense matrix times a dense vector *)
Lemma sum3 (F : realFieldType) nx np nw (f : nat -> F) :
  \sum_(j < nx + np + nw) f j = \sum_(j < nx) f j + \sum_(k < np) f (nx + k)%N + \sum_(l < nw) f (nx + np + l)%N.
Proof. by rewrite big_split_ord big_split_ord. Qed.

Section Products.
Variables (F : realFieldType) (nx np nw : nat) (M : mmat F) (js ju : seq nat) (u : mvec F).
Hypothesis P : perm_eq (js ++ ju) (iota 0 nx).
Lemma data_x i : (i < nx)%N -> mvec_data nx np u i = mx u i.
Proof. by rewrite /mvec_data => ->. Qed.
Lemma data_p k : (k < np)%N -> mvec_data nx np u (nx + k)%N = mp u k.
Proof. by move=> h; rewrite /mvec_data ltnNge leq_addr /= ltn_add2l h addKn. Qed.
Lemma data_w l : mvec_data nx np u (nx + np + l)%N = mw u l.
Proof. by rewrite /mvec_data ltnNge -addnA leq_addr /= ltn_add2l ltnNge leq_addr /= addnA addKn. Qed.

Lemma lt1 (k : nat) : (nx + k < nx)%N = false. Proof. by rewrite ltnNge leq_addr. Qed.
Lemma lt2 k : (nx + k < nx + np)%N = (k < np)%N. Proof. by rewrite ltn_add2l. Qed.
Lemma lt3 l : (nx + np + l < nx)%N = false. Proof. by rewrite -addnA lt1. Qed.
Lemma lt4 l : (nx + np + l < nx + np)%N = false. Proof. by rewrite ltnNge leq_addr. Qed.

Lemma unit_sum i (g : nat -> F) : (i < nx)%N -> i \in ju -> \sum_(j < nx) (if nat_of_ord j \in ju then (seq.index i ju == seq.index (nat_of_ord j) ju)%:R else 0) * g j = g i.
Proof.
move=> ix iu; rewrite (bigD1 (Ordinal ix)) //= iu eqxx mul1r big1 ?addr0 // => j ji.
case: ifP => ju'; rewrite ?mul0r //; case: eqP => E; rewrite ?mul0r //.
case/negP: ji; apply/eqP; apply: val_inj => /=.
by rewrite -(nth_index 0%N ju') -E nth_index.
Qed.
End Products.

Theorem C41_product : forall (F : realFieldType) (nx np nw : nat) (M : mmat F) (js ju : seq nat) (u : mvec F) (i : nat),
  perm_eq (js ++ ju) (iota 0 nx) -> (i < nx + np + nw)%N ->
  mvec_data nx np (mm_mul np nw M js ju u) i = \sum_(j < nx + np + nw) mm_dense nx np M js ju i j * mvec_data nx np u j.
Proof.
move=> F nx np nw M js ju u i P it; rewrite (sum3 nx np nw (fun j => mm_dense nx np M js ju i j * mvec_data nx np u j)) {1}/mvec_data /mm_dense.
case: ltnP => [ix|xi]; last case: ltnP => [ip|pi].
- rewrite (eq_bigr (fun j : 'I_nx => dense_Hxx M js ju i j * mx u j)); last by move=> j _; rewrite ltn_ord data_x.
  rewrite [X in _ = _ + X + _](eq_bigr (fun k : 'I_np => (if i \in js then mHxp M i k else 0) * mp u k)); last first.
    by move=> k _; rewrite lt1 lt2 ltn_ord addKn data_p.
  rewrite [X in _ = _ + _ + X](eq_bigr (fun l : 'I_nw => (if i \in js then mWx M l i else 0) * mw u l)); last first.
    by move=> l _; rewrite lt3 lt4 addKn data_w.
  rewrite /= /dense_Hxx (js_ju P ix); case iu: (i \in ju) => /=.
    rewrite unit_sum // big1 => [|k _]; last by rewrite mul0r.
    by rewrite big1 ?addr0 // => l _; rewrite mul0r.
  congr (_ + _ + _); rewrite -(sum_js P); apply: eq_bigr => j _.
  by case: ifP => // _; rewrite mul0r.
- rewrite (eq_bigr (fun j : 'I_nx => if nat_of_ord j \in js then mVpx M (i - nx)%N j * mx u j else 0)); last first.
    by move=> j _; rewrite ltn_ord data_x //; case: ifP => // _; rewrite mul0r.
  rewrite [X in _ = _ + X + _](eq_bigr (fun k : 'I_np => mVpp M (i - nx)%N k * mp u k)); last first.
    by move=> k _; rewrite lt1 lt2 ltn_ord addKn data_p.
  rewrite [X in _ = _ + _ + X]big1 => [|l _]; last by rewrite lt3 lt4 mul0r.
  by rewrite addr0 (sum_js P (fun j => mVpx M (i - nx)%N j * mx u j)).
- rewrite (eq_bigr (fun j : 'I_nx => if nat_of_ord j \in js then mWx M (i - (nx + np))%N j * mx u j else 0)); last first.
    by move=> j _; rewrite ltn_ord data_x //; case: ifP => // _; rewrite mul0r.
  rewrite [X in _ = _ + X + _](eq_bigr (fun k : 'I_np => mWp M (i - (nx + np))%N k * mp u k)); last first.
    by move=> k _; rewrite lt1 lt2 ltn_ord addKn data_p.
  rewrite [X in _ = _ + _ + X]big1 => [|l _]; last by rewrite lt3 lt4 mul0r.
  by rewrite addr0 (sum_js P (fun j => mWx M (i - (nx + np))%N j * mx u j)).
Qed.
Print Assumptions C41_product.

Theorem C41_product_transpose : forall (F : realFieldType) (nx np nw : nat) (M : mmat F) (js ju : seq nat) (u : mvec F) (i : nat),
  perm_eq (js ++ ju) (iota 0 nx) -> (i < nx + np + nw)%N ->
  mvec_data nx np (mm_mul_tr np nw M js ju u) i = \sum_(j < nx + np + nw) mm_dense nx np M js ju j i * mvec_data nx np u j.
Proof.
move=> F nx np nw M js ju u i P it; rewrite (sum3 nx np nw (fun j => mm_dense nx np M js ju j i * mvec_data nx np u j)) {1}/mvec_data.
have E1 : \sum_(j < nx) mm_dense nx np M js ju j i * mvec_data nx np u j =
   if (i < nx)%N then \sum_(j < nx) dense_Hxx M js ju j i * mx u j
   else if (i < nx + np)%N then \sum_(j <- js) mHxp M j (i - nx)%N * mx u j
   else \sum_(j <- js) mWx M (i - (nx + np))%N j * mx u j.
  rewrite -!(sum_js P) /mm_dense; case: ifP => _; last case: ifP => _; apply: eq_bigr => j _; rewrite ltn_ord data_x //; by case: ifP => // _; rewrite mul0r.
have E2 : \sum_(k < np) mm_dense nx np M js ju (nx + k)%N i * mvec_data nx np u (nx + k)%N =
   if (i < nx)%N then (if i \in js then \sum_(k < np) mVpx M k i * mp u k else 0)
   else if (i < nx + np)%N then \sum_(k < np) mVpp M k (i - nx)%N * mp u k
   else 0.
  rewrite (eq_bigr (fun k : 'I_np => mm_dense nx np M js ju (nx + k)%N i * mp u k)); last by move=> k _; rewrite data_p.
  rewrite /mm_dense; case: ifP => _; last case: ifP => _; last by rewrite big1 // => k _; rewrite lt1 lt2 ltn_ord mul0r.
    case: ifP => _; last by rewrite big1 // => k _; rewrite lt1 lt2 ltn_ord mul0r.
    by apply: eq_bigr => k _; rewrite lt1 lt2 ltn_ord addKn.
  by apply: eq_bigr => k _; rewrite lt1 lt2 ltn_ord addKn.
have E3 : \sum_(l < nw) mm_dense nx np M js ju (nx + np + l)%N i * mvec_data nx np u (nx + np + l)%N =
   if (i < nx)%N then (if i \in js then \sum_(l < nw) mWx M l i * mw u l else 0)
   else if (i < nx + np)%N then \sum_(l < nw) mWp M l (i - nx)%N * mw u l
   else 0.
  rewrite (eq_bigr (fun l : 'I_nw => mm_dense nx np M js ju (nx + np + l)%N i * mw u l)); last by move=> l _; rewrite data_w.
  rewrite /mm_dense; case: ifP => _; last case: ifP => _; last by rewrite big1 // => k _; rewrite lt3 lt4 mul0r.
    case: ifP => _; last by rewrite big1 // => k _; rewrite lt3 lt4 mul0r.
    by apply: eq_bigr => k _; rewrite lt3 lt4 addKn.
  by apply: eq_bigr => k _; rewrite lt3 lt4 addKn.
rewrite E1 E2 E3 /=.
case: ltnP => [ix|xi]; last by case: ltnP => [ip|pi] //; rewrite !addr0.
rewrite (js_ju P ix) /dense_Hxx; case iu: (i \in ju) => /=.
  rewrite !addr0 -[LHS](unit_sum (ju := ju) (mx u) ix iu); apply: eq_bigr => j _.
  by rewrite andbT eq_sym (js_ju P ix) iu andbF.
congr (_ + _ + _); rewrite -(sum_js P); apply: eq_bigr => j _.
by rewrite andbF (js_ju P ix) iu andbT; case: ifP => // _; rewrite mul0r.
Qed.
Print Assumptions C41_product_transpose.

(** Converting a master vector to a vector and back, in both directions. *)
Theorem C41_vector_roundtrip : forall (F : realFieldType) (nx np nw : nat) (u : mvec F) (d : rawvec F),
  let v := mvec_of_data nx nw (nx + np + nw)%N (mvec_data nx np u) in
  [/\ forall i, (i < nx)%N -> mx v i = mx u i, forall k, (k < np)%N -> mp v k = mp u k, forall l, (l < nw)%N -> mw v l = mw u l
    & forall i, (i < nx + np + nw)%N -> mvec_data nx np (mvec_of_data nx nw (nx + np + nw)%N d) i = d i].
Proof.
move=> F nx np nw u d v; split.
- by move=> i ix; rewrite /v /= data_x.
- by move=> k kp; rewrite /v /= data_p.
- by move=> l lw; rewrite /v /= addnK data_w.
- move=> i it; rewrite /mvec_data /=; case: ltnP => // xi; case: ltnP => pi; first by rewrite subnKC.
  by rewrite addnK subnKC.
Qed.
Print Assumptions C41_vector_roundtrip.

Example C41_case : perm_eq ([:: 2; 0] ++ [:: 1])%N (iota 0 3).
Proof. by []. Qed.
