(** Specification vocabulary for C32 and C39. *)
From Coq Require Import List PeanoNat Permutation.
From mathcomp Require Import all_ssreflect all_fingroup all_algebra.
From Verif Require Import Index_model LU_model LU_spec Linear_model Linear_spec Canonical_model.
Set Implicit Arguments.
Unset Strict Implicit.
Unset Printing Implicit Defensive.
Local Open Scope ring_scope.
Import Order.TTheory GRing.Theory Num.Theory.
Local Open Scope list_scope.
Local Notation "l ++ l'" := (List.app l l') : seq_scope.

Section CanonicalSpec.
Variables (F : realFieldType) (nx np nw : nat).

(** R*[Wx Wp] = [I S Sp] when the columns of Wx are taken in the order (jb, jn), which
    lists every variable once. *)
Definition echelon_form (M : mmat F) (R S Sp : rawmx F) (jb jn : list nat) : Prop :=
  [/\ Permutation (indices nx) (jb ++ jn),
      forall i k, (i < length jb)%N -> (k < length jb)%N -> \sum_(l < nw) R i l * mWx M l (ix jb k) = (i == k)%:R,
      forall i k, (i < length jb)%N -> (k < length jn)%N -> \sum_(l < nw) R i l * mWx M l (ix jn k) = S i k
    & forall i k, (i < length jb)%N -> (k < np)%N -> \sum_(l < nw) R i l * mWp M l k = Sp i k].

(** the diagonal Hessian entry of variable j dominates 1, or the column k of S, and the
    column of j in Vpx *)
Definition dominates_basic (M : mmat F) (j : nat) : Prop :=
  1 <= `|mHxx M j j| /\ forall l, (l < np)%N -> `|mVpx M l j| <= `|mHxx M j j|.
Definition dominates_nonbasic (M : mmat F) (nb : nat) (S : rawmx F) (k j : nat) : Prop :=
  (forall i, (i < nb)%N -> `|S i k| <= `|mHxx M j j|) /\ forall l, (l < np)%N -> `|mVpx M l j| <= `|mHxx M j j|.

(** What C32 says of the canonical view c of the master matrix M with echelon form q. *)
Record canonical_view (M : mmat F) (q : rwq F) (c : canon F) : Prop := CanonicalView {
  cv_basic : Permutation (qjb q) (kjb c);
  cv_nonbasic : Permutation (qjn q) (kjn c);
  cv_order : kjs c ++ kju c = kjb c ++ kjn c;
  cv_sizes : [/\ length (kjb c) = (knbe c + knbi c)%N, length (kjs c) = (knbe c + knbi c + (knne c + knni c))%N
               & length (kju c) = knnu c];
  cv_stable : forall j, In j (kjs c) <-> (j < nx)%N /\ ~ In j (mju M);
  cv_unstable : forall j, In j (kju c) <-> In j (mju M);
  cv_echelon : echelon_form M (kR c) (kSbn c) (kSbp c) (kjb c) (kjn c);
  cv_explicit_b : forall k, (k < knbe c + knbi c)%N -> ((k < knbe c)%N <-> dominates_basic M (ix (kjb c) k));
  cv_explicit_n : forall k, (k < knne c + knni c)%N ->
    ((k < knne c)%N <-> dominates_nonbasic M (knbe c + knbi c) (kSbn c) k (ix (kjn c) k)) }.

(** The master equations for the unknowns u = (x, p, w) and right-hand side a:
    Hss xs + Hsp p + Ws' w = as,  xu = au,  Vps xs + Vpp p = ap  and,
    for the combinations R of its rows, Ws xs + Wp p = aw. *)
Definition Wrow (M : mmat F) (js : list nat) (u : mvec F) (l : nat) : F :=
  \sum_(j <- js) mWx M l j * mx u j + \sum_(k < np) mWp M l k * mp u k.
Record master_eqs (M : mmat F) (c : canon F) (a u : mvec F) : Prop := MasterEqs {
  me_s : forall i, In i (kjs c) ->
    \sum_(j <- kjs c) mHxx M i j * mx u j + \sum_(k < np) mHxp M i k * mp u k
    + \sum_(l < nw) mWx M l i * mw u l = mx a i;
  me_u : forall i, In i (kju c) -> mx u i = mx a i;
  me_p : forall l, (l < np)%N ->
    \sum_(j <- kjs c) mVpx M l j * mx u j + \sum_(k < np) mVpp M l k * mp u k = mp a l;
  me_w : forall i, (i < knbe c + knbi c)%N ->
    \sum_(l < nw) kR c i l * Wrow M (kjs c) u l = \sum_(l < nw) kR c i l * mw a l }.

(** all rows of Ws xs + Wp p = aw *)
Definition all_W_rows (M : mmat F) (c : canon F) (a u : mvec F) : Prop :=
  forall l, (l < nw)%N -> Wrow M (kjs c) u l = mw a l.

(** every row of Wx is a combination of the rows of R*Wx, i.e. Wx has as many independent
    rows as there are basic variables *)
Definition rows_spanned (M : mmat F) (c : canon F) : Prop :=
  exists K : rawmx F, forall l j, (l < nw)%N -> (j < nx)%N ->
    mWx M l j = \sum_(b < knbe c + knbi c) K l b * (\sum_(l' < nw) kR c b l' * mWx M l' j).

(** The LU factors given to the chosen method are those of its matrix, no equation is
    discarded for lack of magnitude (C33) and, for Rangespace, H is diagonal and there are no
    basic explicit variables (C38). *)
Definition method_ok (eps : F) (M : mmat F) (c : canon F) (a : mvec F) (m : method c np) : Prop :=
  let J := canon_cmat np M c in let ac := canon_rhs np nw c a in
  match m with
  | MFullspace f => full_piv (full_matrix J) f /\ resolved eps f (full_rhs ac)
  | MNullspace f => full_piv (nM (null_decompose J)) f /\ resolved eps f (null_rhs (null_decompose J) ac)
  | MRangespace f => [/\ knbe c = 0%N, is_diag (cHss J), forall i, range_Hnene J i 0 != 0,
                         full_piv (range_matrix J) f & resolved eps f (range_rhs J ac)]
  end.
End CanonicalSpec.
