(** Model of Optima/EchelonizerExtended.cpp in exact arithmetic over a real field.

    A has nbA+mdA rows and nbA+(nbJ+nnJ) columns, nbA its rank; J has nbJ+mdJ rows and
    nbJ is the rank of J reduced by A.  The echelonizers of A and of the reduced J are
    [ech] states of Echelon_model.v. *)
From mathcomp Require Import all_ssreflect all_algebra.
From Verif Require Import Echelon_model.
Set Implicit Arguments.
Unset Strict Implicit.
Unset Printing Implicit Defensive.
Local Open Scope ring_scope.
Import Order.TTheory GRing.Theory Num.Theory.

Section Extended.
Variables (F : realFieldType) (nbA mdA nbJ mdJ nnJ : nat).

(** fields R, S, Q (EchelonizerExtended.cpp:37-44); R as its top nbA+nbJ rows and the rest *)
Record xech := Xech {
  xR : 'M[F]_(nbA + nbJ, (nbA + mdA) + (nbJ + mdJ));
  xRb : 'M[F]_(mdA + mdJ, (nbA + mdA) + (nbJ + mdJ));
  xS : 'M[F]_(nbA + nbJ, nnJ);
  xQ : 'I_((nbA + nbJ) + nnJ) -> 'I_(nbA + (nbJ + nnJ)) }.

(** EchelonizerExtended.cpp:104-107: the reduced matrix J2 - J1*SA given to echelonizerJ.compute *)
Definition J1of (eA : ech F nbA mdA (nbJ + nnJ)) (J : 'M[F]_(nbJ + mdJ, nbA + (nbJ + nnJ))) : 'M[F]_(nbJ + mdJ, nbA) :=
  lsubmx (colsub (eQ eA) J).
Definition J2of (eA : ech F nbA mdA (nbJ + nnJ)) (J : 'M[F]_(nbJ + mdJ, nbA + (nbJ + nnJ))) : 'M[F]_(nbJ + mdJ, nbJ + nnJ) :=
  rsubmx (colsub (eQ eA) J) - J1of eA J *m eS eA.

(** EchelonizerExtended.cpp:109: the weights given to echelonizerJ *)
Definition wJof (eA : ech F nbA mdA (nbJ + nnJ)) (w : 'I_(nbA + (nbJ + nnJ)) -> F) : 'I_(nbJ + nnJ) -> F :=
  fun j => w (eQ eA (rshift nbA j)).

(** EchelonizerExtended.cpp:126-128: position p of the new Q: the basic variables of A,
    then the non-basic variables of A in the order of QJ (lines 127-128 write the n
    positions as nbA and nbJ+nnJ; here they are counted as nbA+nbJ and nnJ). *)
Definition ext_Q (eA : ech F nbA mdA (nbJ + nnJ)) (eJ : ech F nbJ mdJ nnJ) (p : 'I_((nbA + nbJ) + nnJ)) : 'I_(nbA + (nbJ + nnJ)) :=
  match split p with
  | inl b => match split b with
             | inl i => eQ eA (lshift (nbJ + nnJ) i)
             | inr k => eQ eA (rshift nbA (eQ eJ (lshift nnJ k)))
             end
  | inr j => eQ eA (rshift nbA (eQ eJ (rshift nbJ j)))
  end.

(** EchelonizerExtended.cpp:126-161 *)
Definition ext_assemble (eA : ech F nbA mdA (nbJ + nnJ)) (eJ : ech F nbJ mdJ nnJ) (J : 'M[F]_(nbJ + mdJ, nbA + (nbJ + nnJ))) : xech :=
  let J1 := J1of eA J in
  let SA12 := colsub (eQ eJ) (eS eA) in                           (* 130-131 *)
  let SA1 := lsubmx SA12 in
  let SA2 := rsubmx SA12 - SA1 *m eS eJ in                        (* 134 *)
  Xech (block_mx (eR eA + SA1 *m eR eJ *m J1 *m eR eA) (- (SA1 *m eR eJ))
                 (- (eR eJ *m J1 *m eR eA)) (eR eJ))              (* 151, 154, 157, 160 *)
       (block_mx (eRb eA) 0
                 (- (eRb eJ *m J1 *m eR eA)) (eRb eJ))            (* 152, 155, 158, 161 *)
       (col_mx SA2 (eS eJ))                                       (* 136-138 *)
       (ext_Q eA eJ).

(** EchelonizerExtended.cpp:203-233 updateOrdering, and the same statements in 186-199 *)
Definition ext_order (x : xech) (Kb : 'I_(nbA + nbJ) -> 'I_(nbA + nbJ)) (Kn : 'I_nnJ -> 'I_nnJ) : xech :=
  Xech (rowsub Kb (xR x)) (xRb x) (mxsub Kb Kn (xS x))
       (fun p => match split p with
                 | inl i => xQ x (lshift nnJ (Kb i))
                 | inr j => xQ x (rshift (nbA + nbJ) (Kn j))
                 end).

(** EchelonizerExtended.cpp:78-200 updateWithPriorityWeights for a non-empty J.
    [eA] is the echelonizer of A before the call and [eJ] that of the reduced J after
    echelonizerJ.compute(J2) (line 110); the K's are the results of the sorts. *)
Definition ext_update (th : F) (eA : ech F nbA mdA (nbJ + nnJ)) (eJ : ech F nbJ mdJ nnJ)
    (J : 'M[F]_(nbJ + mdJ, nbA + (nbJ + nnJ))) (w : 'I_(nbA + (nbJ + nnJ)) -> F)
    KbA KnA KbJ KnJ Kb Kn : xech :=
  let eA' := ech_weights th w eA KbA KnA in                       (* 80 *)
  let eJ' := ech_weights th (wJof eA' w) eJ KbJ KnJ in            (* 111 *)
  ext_order (ext_assemble eA' eJ' J) Kb Kn.

(** EchelonizerExtended.cpp:236-243 *)
Definition ext_clean (sigma : F) (x : xech) : xech :=
  Xech (clean_mx sigma (xR x)) (clean_mx sigma (xRb x)) (clean_mx sigma (xS x)) (xQ x).
End Extended.

(** numEquations (EchelonizerExtended.cpp:274-277): rows(A) + the rows of the matrix last
    given to echelonizerJ.compute, which updateWithPriorityWeights does not call for an
    empty J (82-88; J is empty when it has no rows or no columns).  A fresh echelonizerJ
    has a 0x0 matrix. *)
Record xrows := Xrows { rowsA : nat; colsA : nat; rowsJ : nat }.
Definition xrows_init (mA n : nat) := Xrows mA n 0.
Definition xrows_update (s : xrows) (mJ : nat) : xrows :=
  if (mJ * colsA s == 0)%N then s else Xrows (rowsA s) (colsA s) mJ.
Definition num_equations (s : xrows) : nat := rowsA s + rowsJ s.
