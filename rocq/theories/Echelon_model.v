(** Model of Optima/Echelonizer.cpp in exact arithmetic over a real field.

    nb = number of basic variables (the rank found by compute), md = number of
    remaining rows of A, nn = number of non-basic variables; so A has nb+md rows
    and nb+nn columns.  R is kept as its top nb rows [eR] and its bottom md rows
    [eRb]: the code changes only the former (R.topRows(nb)). Index vectors (Q, Kb,
    Kn) are functions from positions to indices; that Q is a permutation is a
    property proved, not built in. *)
From mathcomp Require Import all_ssreflect all_algebra.
Set Implicit Arguments.
Unset Strict Implicit.
Unset Printing Implicit Defensive.
Local Open Scope ring_scope.
Import Order.TTheory GRing.Theory Num.Theory.

Section Echelonizer.
Variables (F : realFieldType) (nb md nn : nat).
Implicit Types (A : 'M[F]_(nb + md, nb + nn)).

(** The fields R, S, Q (Echelonizer.cpp:47-59) *)
Record ech := Ech {
  eR : 'M[F]_(nb, nb + md);
  eRb : 'M[F]_(md, nb + md);
  eS : 'M[F]_(nb, nn);
  eQ : 'I_(nb + nn) -> 'I_(nb + nn) }.

(** The full-pivoting LU factors (Eigen::FullPivLU): permutation matrices P, Q,
    blocks Lbb, Lnb of L and Ubb, Ubn of U that belong to the nb nonzero pivots. *)
Record lufactors := LU {
  lP : 'I_(nb + md) -> 'I_(nb + md); (* row i of P*A is row lP i of A *)
  lQ : 'I_(nb + nn) -> 'I_(nb + nn); (* column j of A*Q is column lQ j of A *)
  lLbb : 'M[F]_nb; lLnb : 'M[F]_(md, nb);
  lUbb : 'M[F]_nb; lUbn : 'M[F]_(nb, nn) }.

(** the dense permutation matrix P *)
Definition permrows (p : 'I_(nb + md) -> 'I_(nb + md)) : 'M[F]_(nb + md) :=
  \matrix_(i, k) (p i == k)%:R.

(** Echelonizer.cpp:111-173 compute, for a matrix different from the current one:
    R = P (line 153), R.topRows(nb) = Ubb^-1 Lbb^-1 R.topRows(nb) (154-155),
    S = Ubb^-1 Ubn (158-159), Q (144).  Triangular solves are products with the inverse. *)
Definition ech_compute (f : lufactors) : ech :=
  let P := permrows (lP f) in
  Ech (invmx (lUbb f) *m (invmx (lLbb f) *m usubmx P)) (dsubmx P)
      (invmx (lUbb f) *m lUbn f) (lQ f).

(** Echelonizer.cpp:176-218 updateWithSwapBasicVariable.  1/S(ib,in) is computed
    also when the entry is zero (the assertion of line 193 is off in a release build). *)
Definition swap_rows k (X : 'M[F]_(nb, k)) (S : 'M[F]_(nb, nn)) (ib : 'I_nb) (jn : 'I_nn) : 'M[F]_(nb, k) :=
  let aux := 1 / S ib jn in
  \matrix_(i, j) if i == ib then X ib j * aux else X i j - S i jn * (X ib j * aux).
Definition ech_swap (e : ech) (ib : 'I_nb) (jn : 'I_nn) : ech :=
  let S := eS e in
  let M := col jn S in                                            (* 198 *)
  let aux := 1 / S ib jn in                                       (* 202 *)
  let R' := swap_rows (eR e) S ib jn in                           (* 205-207 *)
  let S1 := swap_rows S S ib jn in                                (* 210-212 *)
  let S2 : 'M[F]_(nb, nn) :=
    \matrix_(i, j) if j == jn then (if i == ib then aux else - M i 0 * aux) else S1 i j in (* 213-214 *)
  let q := fun p => if p == lshift nn ib then eQ e (rshift nb jn)
                    else if p == rshift nb jn then eQ e (lshift nn ib) else eQ e p in (* 217 *)
  Ech R' (eRb e) S2 q.

(** Echelonizer.cpp:240-253: the non-basic variable of largest weight among those
    with |S(i,k)| > threshold; [None] stands for max = -infinity. *)
Definition candidate (th : F) (w : 'I_(nb + nn) -> F) (e : ech) (i : 'I_nb) : option (F * 'I_nn) :=
  foldl (fun acc k =>
    if `|eS e i k| <= th then acc
    else let tmp := w (eQ e (rshift nb k)) in
         match acc with
         | None => Some (tmp, k)
         | Some (mx, _) => if mx < tmp then Some (tmp, k) else acc
         end) None (enum 'I_nn).

(** Echelonizer.cpp:256-263 *)
Definition weight_pass (th : F) (w : 'I_(nb + nn) -> F) (e : ech) (i : 'I_nb) : ech :=
  match candidate th w e i with
  | Some (wj, j) => if w (eQ e (lshift nn i)) < wj then ech_swap e i j else e
  | None => e
  end.
Definition weight_swaps (th : F) (w : 'I_(nb + nn) -> F) (e : ech) : ech :=
  foldl (weight_pass th w) e (enum 'I_nb).

(** Echelonizer.cpp:298-328 updateOrdering (and the same statements in 273-286):
    row i of S and of R.topRows(nb) becomes the old row Kb[i], column j of S the
    old column Kn[j], and the two parts of Q follow. *)
Definition ech_order (e : ech) (Kb : 'I_nb -> 'I_nb) (Kn : 'I_nn -> 'I_nn) : ech :=
  Ech (rowsub Kb (eR e)) (eRb e) (mxsub Kb Kn (eS e))
      (fun p => match split p with
                | inl i => eQ e (lshift nn (Kb i))
                | inr j => eQ e (rshift nb (Kn j))
                end).

(** Echelonizer.cpp:221-287 updateWithPriorityWeights.  Kb and Kn are the results of
    the two std::sort calls (266-271); Kb and Kn keep their
    previous values before the sort, any permutation is possible: see [sorted_by] in Echelon_spec.v. *)
Definition ech_weights (th : F) (w : 'I_(nb + nn) -> F) (e : ech) (Kb : 'I_nb -> 'I_nb) (Kn : 'I_nn -> 'I_nn) : ech :=
  ech_order (weight_swaps th w e) Kb Kn.

(** Echelonizer.cpp:331-338, with exact additions *)
Definition clean_mx (sigma : F) (p q : nat) (X : 'M[F]_(p, q)) : 'M[F]_(p, q) :=
  map_mx (fun x => (x + sigma) - sigma) X.
Definition ech_clean (sigma : F) (e : ech) : ech :=
  Ech (clean_mx sigma (eR e)) (clean_mx sigma (eRb e)) (clean_mx sigma (eS e)) (eQ e).

(** One call on an Echelonizer object after compute(A). *)
Inductive ech_op :=
  | OpSwap (ib : 'I_nb) (jn : 'I_nn)
  | OpWeights (w : 'I_(nb + nn) -> F) (Kb : 'I_nb -> 'I_nb) (Kn : 'I_nn -> 'I_nn)
  | OpOrder (Kb : 'I_nb -> 'I_nb) (Kn : 'I_nn -> 'I_nn)
  | OpClean (sigma : F)
  | OpReset            (* Echelonizer.cpp:290-295: R, S, Q from the backup of compute *)
  | OpComputeSame.     (* Echelonizer.cpp:114-115: compute of the same matrix returns *)

(** The object: current R, S, Q and the backups R0, S0, Q0 (Echelonizer.cpp:81-88, 170-172).
    Only compute writes the backups. *)
Record ech_obj := Obj { cur : ech; bak : ech }.
Definition obj_compute (f : lufactors) : ech_obj := Obj (ech_compute f) (ech_compute f).
Definition ech_step (th : F) (s : ech_obj) (o : ech_op) : ech_obj :=
  match o with
  | OpSwap ib jn => Obj (ech_swap (cur s) ib jn) (bak s)
  | OpWeights w Kb Kn => Obj (ech_weights th w (cur s) Kb Kn) (bak s)
  | OpOrder Kb Kn => Obj (ech_order (cur s) Kb Kn) (bak s)
  | OpClean sigma => Obj (ech_clean sigma (cur s)) (bak s)
  | OpReset => Obj (bak s) (bak s)
  | OpComputeSame => s
  end.
Definition ech_run (th : F) (s : ech_obj) (ops : seq ech_op) : ech_obj := foldl (ech_step th) s ops.

(** Echelonizer.cpp:47 R as one matrix, and 399-407 C() *)
Definition ech_R (e : ech) : 'M[F]_(nb + md) := col_mx (eR e) (eRb e).
Definition ech_C (e : ech) : 'M[F]_(nb + md, nb + nn) := col_mx (row_mx 1%:M (eS e)) 0.
End Echelonizer.

(** Echelonizer.cpp:96-108 numBasicVariables.  Eigen's FullPivLU::rank() counts the
    diagonal entries of U with |p| > maxPivot*threshold; [piv] is that diagonal. *)
Definition lu_rank_count (F : realFieldType) (th : F) (maxp : F) (piv : seq F) : nat :=
  count (fun p => maxp * th < `|p|) piv.
Definition num_basic (F : realFieldType) (eps th : F) (maxp : F) (piv : seq F) : nat :=
  if maxp < 10%:R * eps then lu_rank_count 1 maxp piv else lu_rank_count th maxp piv.
