(** Property theorems C32, C39 and C67. *)
From Coq Require Import List PeanoNat Permutation.
From mathcomp Require Import all_ssreflect all_fingroup all_algebra.
From Verif Require Import Index_model Index_spec Index_proofs LU_model LU_spec Linear_model Linear_spec Linear_proofs P_Linear.
From Verif Require Import Echelon_model Echelon_spec EchelonExt_model EchelonExt_spec P_EchelonExt.
From Verif Require Import Canonical_model Canonical_spec Canonical_proofs EchelonW_model EchelonW_proofs.
Set Implicit Arguments.
Unset Strict Implicit.
Unset Printing Implicit Defensive.
Import Order.TTheory GRing.Theory Num.Theory.
Local Open Scope ring_scope.

(** ** C32.  [part] is any implementation of std::partition; [q] is the echelon form given
    by EchelonizerW (C67); ju has no duplicates and addresses existing variables. *)
Theorem C32_canonical_view : forall (F : realFieldType) (part : partition_impl) (nx np nw : nat) (M : mmat F) (q : rwq F) (c : canon F),
  partition_contract part -> echelon_form nx np nw M (qR q) (qSbn q) (qSbp q) (qjb q) (qjn q) ->
  NoDup (mju M) -> (forall j, In j (mju M) -> (j < nx)%N) ->
  canonicalize part nx np M q = Some c -> canonical_view nx np nw M q c.
Proof. by move=> F part nx np nw M q c HC HE ND RG; exact: canonicalize_view. Qed.
Print Assumptions C32_canonical_view.

(** The update is refused exactly when a basic variable is unstable. *)
Theorem C32_error : forall (F : realFieldType) (part : partition_impl) (nx np : nat) (M : mmat F) (q : rwq F),
  partition_contract part ->
  (canonicalize part nx np M q = None <-> exists j, In j (qjb q) /\ In j (mju M)).
Proof. by move=> F part nx np M q HC; exact: canonicalize_error. Qed.
Print Assumptions C32_error.

(** W = [1 1 | 1], the second variable non-basic and unstable *)
Definition M32 (F : realFieldType) : mmat F :=
  MMat (fun i j => (i == j)%:R) (fun _ _ => 0) (fun _ _ => 0) (fun i j => (i == j)%:R) (fun _ _ => 1) (fun _ _ => 1) [:: 1%N].
Definition q32 (F : realFieldType) : rwq F := RWQ (fun _ _ => 1) (fun _ _ => 1) (fun _ _ => 1) [:: 0%N] [:: 1%N].
Lemma q32_echelon F : echelon_form 2 1 1 (M32 F) (qR (q32 F)) (qSbn (q32 F)) (qSbp (q32 F)) (qjb (q32 F)) (qjn (q32 F)).
Proof.
split; first exact: Permutation_refl.
- by case=> [|i] [|k] // _ _; rewrite big_ord1 mulr1.
- by case=> [|i] [|k] // _ _; rewrite big_ord1 mulr1.
- by case=> [|i] [|k] // _ _; rewrite big_ord1 mulr1.
Qed.
Example C32_case (F : realFieldType) : exists c,
  canonicalize libstdcxx_partition 2 1 (M32 F) (q32 F) = Some c /\ kjs c = [:: 0%N] /\ kju c = [:: 1%N].
Proof.
case E: (canonicalize libstdcxx_partition 2 1 (M32 F) (q32 F)) => [c|].
  exists c; split=> //.
  have [] : NoDup (mju (M32 F)) /\ (forall j, In j (mju (M32 F)) -> (j < 2)%N).
    by split; [repeat constructor; case | move=> j [<-|[]]].
  move=> ND RG; have CV := C32_canonical_view libstdcxx_contract (q32_echelon F) ND RG E.
  have eb : kjb c = [:: 0%N] by apply: Permutation_length_1_inv; apply: (cv_basic CV).
  have en : kjn c = [:: 1%N] by apply: Permutation_length_1_inv; apply: (cv_nonbasic CV).
  have := cv_order CV; rewrite eb en.
  have := cv_stable CV 0%N; have := cv_stable CV 1%N.
  case: (kjs c) => [|a [|b [|d l]]] /=.
  + by move=> _ [_ /(_ (conj isT _))] []; case.
  + by move=> _ _ [-> ->].
  + by move=> H _ [_ E1 _]; case: H => /(_ (or_intror (or_introl E1))) [_ []]; left.
  + by move=> _ _ [].
by move/(C32_error _ _ _ _ libstdcxx_contract): E => [j [[<-|[]]]] [].
Qed.

(** ** C39.  Whatever method produced it, a solution of the canonical equations is mapped to
    a solution of the master equations, the rows of W being taken in the combinations R. *)
Theorem C39_master_equations : forall (F : realFieldType) (nx np nw : nat) (M : mmat F) (q : rwq F) (c : canon F) (a : mvec F) u0 u,
  canonical_view nx np nw M q c ->
  canonical_eqs (canon_cmat np M c) (canon_rhs np nw c a) u -> master_eqs np nw M c a (master_result a u0 u).
Proof. by move=> F nx np nw M q c a u0 u CV; exact: canonical_master CV _ _ _. Qed.
Print Assumptions C39_master_equations.

Lemma rangespace_nbe0 (F : realFieldType) nbe nbi nne nni np (eps : F) f (J : cmat F (nbe + nbi) (nne + nni) np) a :
  nbe = 0%N -> is_diag (cHss J) -> (forall i, range_Hnene J i 0 != 0) ->
  0 <= eps -> full_piv (range_matrix J) f -> nonsingular J -> resolved eps f (range_rhs J a) ->
  exists2 u, rangespace eps f J a = Some u & canonical_eqs J a u.
Proof. move=> E; subst nbe; exact: C38_rangespace_partial. Qed.

(** LinearSolver::solve with any of its methods.  Missing: see C36-C38, and the rows of W
    that are not combinations of the rows R*W ([C39_refuted]). *)
Theorem C39_solve_partial : forall (F : realFieldType) (eps : F) (nx np nw : nat) (M : mmat F) (q : rwq F) (c : canon F) (a : mvec F) u0 (m : method c np),
  canonical_view nx np nw M q c -> 0 <= eps -> nonsingular (canon_cmat np M c) -> method_ok nw eps M a m ->
  exists2 u, ls_solve eps nw M m a u0 = Some u & master_eqs np nw M c a u.
Proof.
move=> F eps nx np nw M q c a u0 m CV e0 N ok.
suff [u E Hu] : exists2 u, match m with
    | MFullspace f => fullspace eps f (canon_rhs np nw c a)
    | MNullspace f => nullspace eps f (canon_cmat np M c) (canon_rhs np nw c a)
    | MRangespace f => rangespace eps f (canon_cmat np M c) (canon_rhs np nw c a)
    end = Some u & canonical_eqs (canon_cmat np M c) (canon_rhs np nw c a) u.
  by exists (master_result a u0 u); [rewrite /ls_solve E | exact: C39_master_equations CV Hu].
case: m ok => f /=.
- by move=> [fp R]; exact: C36_fullspace_partial.
- by move=> [fp R]; apply: C37_nullspace_partial => //; apply: C37_reduced.
- by move=> [E D Hn fp R]; exact: rangespace_nbe0.
Qed.
Print Assumptions C39_solve_partial.

(** If the master system has a solution at all and Wx has as many independent rows as there
    are basic variables, every row of W is satisfied, dependent ones included. *)
Theorem C39_all_rows_partial : forall (F : realFieldType) (nx np nw : nat) (M : mmat F) (q : rwq F) (c : canon F) (a v : mvec F) u0 u,
  canonical_view nx np nw M q c -> rows_spanned nx nw M c -> nonsingular (canon_cmat np M c) ->
  master_eqs np nw M c a v -> all_W_rows np nw M c a v ->
  canonical_eqs (canon_cmat np M c) (canon_rhs np nw c a) u -> all_W_rows np nw M c a (master_result a u0 u).
Proof. by move=> F nx np nw M q c a v u0 u CV [K HK]; exact: master_all_rows CV _ _ _ _ _ HK. Qed.
Print Assumptions C39_all_rows_partial.

(** canonical systems with Hss = I, Vps = 0 and Vpp = I are nonsingular *)
Lemma ident_nonsingular (F : realFieldType) nb nn np (J : cmat F nb nn np) :
  cHss J = 1%:M -> cVps J = 0 -> cVpp J = 1%:M -> nonsingular J.
Proof.
case: J => H Hp V Vp S Sp /= -> -> -> [xs p w] [/= E1 E2 E3].
have p0 : p = 0 by move: E2; rewrite mul0mx add0r mul1mx.
move: E1 E3; rewrite p0 !mulmx0 !addr0 mul1mx -(vsubmxK xs) col_mxKu col_mxKd add_col_mx => E1.
have [Eb En] : usubmx xs + w = 0 /\ dsubmx xs + S^T *m w = 0.
  by move: E1; rewrite -[X in _ = X -> _](@col_mx0 F nb nn 1) => /eq_col_mx.
have -> : usubmx xs = - w by apply/eqP; rewrite -addr_eq0 Eb.
have -> : dsubmx xs = - (S^T *m w) by apply/eqP; rewrite -addr_eq0 En.
rewrite mulmxN -opprD => /eqP; rewrite oppr_eq0 => /eqP/gram_free ->.
by rewrite mulmx0 !oppr0 col_mx0.
Qed.
(** W = [1 1 | 1; 2 2 | 2]: two dependent rows *)
Definition M39 (F : realFieldType) : mmat F :=
  MMat (fun i j => (i == j)%:R) (fun _ _ => 0) (fun _ _ => 0) (fun i j => (i == j)%:R)
       (fun l _ => (l.+1)%:R) (fun l _ => (l.+1)%:R) [::].
Definition q39 (F : realFieldType) : rwq F := RWQ (fun _ l => (l == 0%N)%:R) (fun _ _ => 1) (fun _ _ => 1) [:: 0%N] [:: 1%N].
Example C39_case (F : realFieldType) : exists c,
  [/\ canonical_view 2 1 2 (M39 F) (q39 F) c, rows_spanned 2 2 (M39 F) c & nonsingular (canon_cmat 1 (M39 F) c)].
Proof.
have HE : echelon_form 2 1 2 (M39 F) (qR (q39 F)) (qSbn (q39 F)) (qSbp (q39 F)) (qjb (q39 F)) (qjn (q39 F)).
  split; first exact: Permutation_refl.
  - by case=> [|i] [|k] // _ _; rewrite big_ord_recr big_ord1 /= mul1r mul0r addr0.
  - by case=> [|i] [|k] // _ _; rewrite big_ord_recr big_ord1 /= mul1r mul0r addr0.
  - by case=> [|i] [|k] // _ _; rewrite big_ord_recr big_ord1 /= mul1r mul0r addr0.
case E: (canonicalize libstdcxx_partition 2 1 (M39 F) (q39 F)) => [c|]; last first.
  by move/(C32_error _ _ _ _ libstdcxx_contract): E => [j [_ []]].
have [] : NoDup (mju (M39 F)) /\ (forall j, In j (mju (M39 F)) -> (j < 2)%N).
  by split; [constructor | move=> j []].
move=> ND RG; have CV := C32_canonical_view libstdcxx_contract HE ND RG E.
exists c; split=> //.
- have eb : kjb c = [:: 0%N] by apply: Permutation_length_1_inv; apply: (cv_basic CV).
  have [nb1 _ _] := cv_sizes CV; rewrite eb /= in nb1.
  exists (fun l _ => (l.+1)%:R) => l j _ _; rewrite -nb1 big_ord1.
  have [_ H _ _] := cv_echelon CV; move: H; rewrite eb /= => /(_ 0%N 0%N isT isT) /= ->.
  by rewrite mulr1.
- apply: ident_nonsingular; last 2 first.
  + by apply/matrixP => i j; rewrite !mxE.
  + by apply/matrixP => i j; rewrite !mxE.
  apply/matrixP => i j; rewrite !mxE /=; congr ((nat_of_bool _)%:R).
  have [_ ls _] := cv_sizes CV.
  have lt (k : 'I_(knbe c + knbi c + (knne c + knni c))) : (k < length (kjs c))%coq_nat by rewrite ls; apply/ssrnat.ltP.
  have nd : NoDup (kjs c) by apply: view_nodup_s CV.
  by apply/idP/idP => /eqP Eij; apply/eqP; [apply: val_inj; apply: (proj1 (NoDup_nth (kjs c) 0%N) nd i j (lt i) (lt j) Eij) | rewrite Eij].
Qed.

(** Wx = 0, Wp = 1: the row p = aw has no basic variable and is dropped, although it is in
    the row space of W = [Wx Wp] and the master system x = 0, 0 = 0, p = 1 has a solution. *)
Definition Mdrop (F : realFieldType) : mmat F :=
  MMat (fun _ _ => 1) (fun _ _ => 0) (fun _ _ => 0) (fun _ _ => 0) (fun _ _ => 0) (fun _ _ => 1) [::].
Definition qdrop (F : realFieldType) : rwq F := RWQ (fun _ _ => 0) (fun _ _ => 0) (fun _ _ => 0) [::] [:: 0%N].
Theorem C39_refuted : forall F : realFieldType, exists (c : canon F) (a v : mvec F) u0 u,
  [/\ canonical_view 1 1 1 (Mdrop F) (qdrop F) c,
      canonicalize libstdcxx_partition 1 1 (Mdrop F) (qdrop F) = Some c,
      master_eqs 1 1 (Mdrop F) c a v /\ all_W_rows 1 1 (Mdrop F) c a v,
      canonical_eqs (canon_cmat 1 (Mdrop F) c) (canon_rhs 1 1 c a) u
    & ~ all_W_rows 1 1 (Mdrop F) c a (master_result a u0 u)].
Proof.
move=> F.
have HE : echelon_form 1 1 1 (Mdrop F) (qR (qdrop F)) (qSbn (qdrop F)) (qSbp (qdrop F)) (qjb (qdrop F)) (qjn (qdrop F)).
  by split.
case E: (canonicalize libstdcxx_partition 1 1 (Mdrop F) (qdrop F)) => [c|]; last first.
  by move/(C32_error _ _ _ _ libstdcxx_contract): E => [j [_ []]].
have [] : NoDup (mju (Mdrop F)) /\ (forall j, In j (mju (Mdrop F)) -> (j < 1)%N).
  by split; [constructor | move=> j []].
move=> ND RG; have CV := C32_canonical_view libstdcxx_contract HE ND RG E.
exists c, (MVec (fun _ => 0) (fun _ => 0) (fun _ => 1)), (MVec (fun _ => 0) (fun _ => 1) (fun _ => 0)), (fun _ => 0), (CVec 0 0 0).
have eb : kjb c = [::] by apply: Permutation_nil; apply: (cv_basic CV).
have [nb0 _ _] := cv_sizes CV; rewrite eb /= in nb0.
split=> //.
- split; last by move=> l _; rewrite /Wrow big_ord1 big1 /= ?mulr1 ?add0r // => *; rewrite mul0r.
  split=> //=.
  + move=> i _; rewrite !big_ord1 !mul0r !addr0 big1 // => *; by rewrite mulr0.
  + move=> l _; rewrite !big_ord1 !mul0r !addr0 big1 // => *; by rewrite mul0r.
  + by move=> i; rewrite -nb0.
- split; rewrite /= ?mulmx0 ?linear0 ?mulmx0 ?addr0 ?add0r ?col_mx0; apply/matrixP => i j; rewrite ?mxE //.
  by move: i; rewrite -nb0 => -[].
- move=> /(_ 0%N isT); rewrite /Wrow big_ord1 big1 => [|j _]; last by rewrite mul0r.
  rewrite /= /rawcol mul1r add0r; case: insubP => [k _ _|//]; rewrite mxE => /eqP.
  by rewrite eq_sym oner_eq0.
Qed.
Print Assumptions C39_refuted.

(** ** C67.  EchelonizerW: after an update with any priority weights and any history of
    earlier updates, the view handed to Canonicalizer satisfies R*[Wx Wp] = [I S Sp] for
    W = [Ax Ap; Jx Jp]. *)
Theorem C67_echelonizerW : forall (F : realFieldType) (nbA mdA nbJ mdJ nnJ np : nat)
    (A : 'M[F]_(nbA + mdA, nbA + (nbJ + nnJ))) (J : 'M[F]_(nbJ + mdJ, nbA + (nbJ + nnJ)))
    (Ap : 'M[F]_(nbA + mdA, np)) (Jp : 'M[F]_(nbJ + mdJ, np))
    (fA : lufactors F nbA mdA (nbJ + nnJ)) (fJ : lufactors F nbJ mdJ nnJ) (th sigma : F) w hist histJ KbA KnA KbJ KnJ Kb Kn (M : mmat F),
  let eA := cur (ech_run th (obj_compute fA) hist) in
  let eA' := ech_weights th w eA KbA KnA in
  let eJ := cur (ech_run th (obj_compute fJ) histJ) in
  let x := ext_update th eA eJ J w KbA KnA KbJ KnJ Kb Kn in
  let q := ew_view sigma x (ew_Wp Ap Jp) in
  0 <= th -> lu_contract A fA -> ops_ok th (obj_compute fA) hist -> injective KbA -> injective KnA ->
  lu_contract (J2of eA' J) fJ -> ops_ok th (obj_compute fJ) histJ -> injective KbJ -> injective KnJ ->
  injective Kb -> injective Kn ->
  (forall l j, (l < (nbA + mdA) + (nbJ + mdJ))%N -> (j < nbA + (nbJ + nnJ))%N -> mWx M l j = rawm (ew_Wx A J) l j) ->
  (forall l k, (l < (nbA + mdA) + (nbJ + mdJ))%N -> (k < np)%N -> mWp M l k = rawm (ew_Wp Ap Jp) l k) ->
  echelon_form (nbA + (nbJ + nnJ)) np ((nbA + mdA) + (nbJ + mdJ)) M (qR q) (qSbn q) (qSbp q) (qjb q) (qjn q).
Proof.
move=> F nbA mdA nbJ mdJ nnJ np A J Ap Jp fA fJ th sigma w hist histJ KbA KnA KbJ KnJ Kb Kn M eA eA' eJ x q.
move=> th0 cA okA bA nA cJ okJ bJ nJ b n HW HP.
by apply: ew_echelon HW HP; apply: C30_extended_partial.
Qed.
Print Assumptions C67_echelonizerW.
