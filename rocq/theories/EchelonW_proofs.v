From Coq Require Import List PeanoNat Permutation Lia.
From mathcomp Require Import all_ssreflect all_fingroup all_algebra.
From Verif Require Import Index_model Echelon_model EchelonExt_model EchelonExt_spec EchelonExt_proofs Canonical_model Canonical_spec Canonical_proofs EchelonW_model.
Set Implicit Arguments.
Unset Strict Implicit.
Unset Printing Implicit Defensive.
Import Order.TTheory GRing.Theory Num.Theory.
Local Open Scope ring_scope.
Local Open Scope list_scope.
Local Notation "l ++ l'" := (List.app l l') : seq_scope.

Lemma rawmE (F : realFieldType) p q (A : 'M[F]_(p, q)) (i : 'I_p) (j : 'I_q) : rawm A i j = A i j.
Proof. by rewrite /rawm !valK. Qed.
Lemma clean_id (F : realFieldType) sigma p q (A : 'M[F]_(p, q)) : clean_mx sigma A = A.
Proof. by apply/matrixP => i j; rewrite mxE addrK. Qed.
Lemma ix_enum k (g : 'I_k -> nat) (i : 'I_k) : ix (List.map g (enum 'I_k)) i = g i.
Proof.
have E : length (enum 'I_k) = k by rewrite -[RHS](size_enum_ord k).
rewrite /ix (nth_indep _ 0%N (g i)); last by rewrite map_length E; apply/ssrnat.ltP.
rewrite map_nth; congr g.
have -> : List.nth i (enum 'I_k) i = seq.nth i (enum 'I_k) i.
  elim: (enum 'I_k) (nat_of_ord i) {E} => [|x l IH] [|t] //=; exact: IH.
by apply: ord_inj; rewrite nth_enum_ord.
Qed.
Lemma length_enum_map k (g : 'I_k -> nat) : length (List.map g (enum 'I_k)) = k.
Proof. by rewrite map_length -[RHS](size_enum_ord k). Qed.

Section EW.
Variables (F : realFieldType) (nbA mdA nbJ mdJ nnJ np : nat).
Local Notation nx := (nbA + (nbJ + nnJ))%N.
Local Notation nb := (nbA + nbJ)%N.
Variables (A : 'M[F]_(nbA + mdA, nx)) (J : 'M[F]_(nbJ + mdJ, nx)).
Variables (Ap : 'M[F]_(nbA + mdA, np)) (Jp : 'M[F]_(nbJ + mdJ, np)).
Local Notation nw := ((nbA + mdA) + (nbJ + mdJ))%N.

Lemma ew_echelon sigma (x : xech F nbA mdA nbJ mdJ nnJ) (M : mmat F) : xcanonical A J x ->
  (forall l j, (l < nw)%N -> (j < nx)%N -> mWx M l j = rawm (col_mx A J) l j) ->
  (forall l k, (l < nw)%N -> (k < np)%N -> mWp M l k = rawm (col_mx Ap Jp) l k) ->
  let q := ew_view sigma x (ew_Wp Ap Jp) in echelon_form nx np nw M (qR q) (qSbn q) (qSbp q) (qjb q) (qjn q).
Proof.
move=> [QI _ _ E] HW HP q.
have cR : clean_mx sigma (xR x) = xR x by apply: clean_id.
have E' : xR x *m colsub (xQ x) (col_mx A J) = row_mx 1%:M (xS x).
  by move: E; rewrite /xech_R mul_col_mx col_mxKu.
have WE (l : 'I_nw) (j : 'I_nx) : mWx M l j = col_mx A J l j by rewrite HW // rawmE.
have PE (l : 'I_nw) (j : 'I_np) : mWp M l j = col_mx Ap Jp l j by rewrite HP // rawmE.
have lb : length (qjb q) = nb by apply: length_enum_map.
have ln : length (qjn q) = nnJ by apply: length_enum_map.
have RWE (i : 'I_nb) (t : 'I_(nb + nnJ)) : \sum_(l < nw) qR q i l * mWx M l (xQ x t) = row_mx 1%:M (xS x) i t.
  rewrite -E' mxE; apply: eq_bigr => l _.
  by rewrite WE /q /= cR rawmE [in RHS]mxE.
split.
- have N : NoDup (qjb q ++ qjn q).
    have -> : qjb q ++ qjn q = List.map (fun t : 'I_(nb + nnJ) => nat_of_ord (xQ x t)) (enum 'I_(nb + nnJ)).
      apply: (nth_ext _ _ 0%N 0%N); first by rewrite app_length lb ln length_enum_map.
      move=> t; rewrite app_length lb ln => /ssrnat.ltP tl.
      pose o : 'I_(nb + nnJ) := Ordinal tl; rewrite -[t]/(nat_of_ord o) -/(ix _ _) -/(ix _ _) ix_enum; clearbody o; clear.
      case: (split_ordP o) => k ->.
        rewrite /ix app_nth1; first by rewrite -/(ix _ _) ix_enum.
        by rewrite length_enum_map; apply/ssrnat.ltP; exact: (ltn_ord k).
      rewrite /ix app_nth2; last by rewrite length_enum_map; apply/ssrnat.leP; apply: leq_addr.
      by rewrite length_enum_map minusE /= addKn -/(ix _ _) ix_enum.
    apply: FinFun.Injective_map_NoDup => [s t /val_inj /QI //|].
    have := enum_uniq 'I_(nb + nnJ); elim: (enum _) => [|y s IH] /=; first by constructor.
    case/andP=> ys us; constructor; last exact: IH.
    move=> H; move/negP: ys; apply; elim: s H {us IH} => //= z s IH [->|/IH]; first by rewrite mem_head.
    by rewrite inE => ->; rewrite orbT.
  apply: Permutation_sym; apply: NoDup_Permutation_bis => //.
    by rewrite app_length lb ln seq_length; apply/ssrnat.leP; rewrite plusE -addnA leqnn.
  move=> j /(@in_app_or _ _ _ _) [] /in_map_iff [k [<- _]]; apply/in_seq; split; try lia; apply/ssrnat.ltP; exact: ltn_ord.
- move=> i k; rewrite lb => il kl; rewrite -[i]/(nat_of_ord (Ordinal il)) -[k]/(nat_of_ord (Ordinal kl)) ix_enum.
  by rewrite RWE row_mxEl mxE.
- move=> i k; rewrite lb ln => il kl; rewrite -[i]/(nat_of_ord (Ordinal il)) -[k]/(nat_of_ord (Ordinal kl)) ix_enum.
  have -> : qSbn q = rawm (xS x) by rewrite /q /= clean_id.
  by rewrite RWE row_mxEr rawmE.
- move=> i k; rewrite lb => il kl; rewrite -[i]/(nat_of_ord (Ordinal il)) -[k]/(nat_of_ord (Ordinal kl)).
  have -> : qSbp q = rawm (xR x *m ew_Wp Ap Jp) by rewrite /q /= cR clean_id.
  have -> : qR q = rawm (xR x) by rewrite /q /= cR.
  rewrite rawmE mxE; apply: eq_bigr => l _.
  by rewrite PE rawmE.
Qed.
End EW.
