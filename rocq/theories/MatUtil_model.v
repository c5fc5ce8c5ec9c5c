(** Model of the matrix utilities of Optima/Utils.cpp:533-618, Utils.hpp:31-42 and
    deps/eigenx/Eigen/src/FixedMatrix.h.  Entries are read and written through
    functions [nat -> nat -> T]; the dimensions are explicit. *)
From Coq Require Import List Arith Bool ZArith.
Import ListNotations.
From Verif Require Import Num.

Section MatUtil.
Context {T : Type} {N : Num T}.

(** std::numeric_limits<double>::epsilon() = 2^-52 *)
Definition neps : T := ndiv none1 (nofZ (2 ^ 52)).

Definition set1 (v : nat -> T) (i : nat) (a : T) : nat -> T :=
  fun k => if Nat.eqb k i then a else v k.
Definition set2 (A : nat -> nat -> T) (i j : nat) (a : T) : nat -> nat -> T :=
  fun k l => if Nat.eqb k i && Nat.eqb l j then a else A k l.

(** Eigen maxCoeff: fold of max from the first coefficient. *)
Definition maxAbs1 (n : nat) (v : nat -> T) : T :=
  fold_left (fun m i => nmax m (nabs (v i))) (seq 0 n) (nabs (v 0)).
Definition maxAbs2 (m n : nat) (A : nat -> nat -> T) : T :=
  fold_left (fun mx j => fold_left (fun mx i => nmax mx (nabs (A i j))) (seq 0 m) mx) (seq 0 n) (nabs (A 0 0)).

(** Utils.cpp:534-544 *)
Definition cleanVec_iter (threshold : T) (v : nat -> T) (i : nat) : nat -> T :=
  if nleb (nabs (v i)) threshold then set1 v i nzero else v.
Definition cleanVec (n : nat) (v : nat -> T) : nat -> T :=
  if Nat.eqb n 0 then v else
  let threshold := nmul (nmul neps (maxAbs1 n v)) (nofZ (Z.of_nat n)) in
  fold_left (cleanVec_iter threshold) (seq 0 n) v.

(** Utils.cpp:547-559 *)
Definition cleanMat_iter (threshold : T) (i : nat) (A : nat -> nat -> T) (j : nat) : nat -> nat -> T :=
  if nleb (nabs (A i j)) threshold then set2 A i j nzero else A.
Definition cleanMat (m n : nat) (A : nat -> nat -> T) : nat -> nat -> T :=
  if Nat.eqb (m * n) 0 then A else
  let threshold := nmul (nmul neps (maxAbs2 m n A)) (nofZ (Z.of_nat (Nat.max m n))) in
  fold_left (fun A i => fold_left (cleanMat_iter threshold i) (seq 0 n) A) (seq 0 m) A.

(** Utils.cpp:561-579; the sums are accumulated from left to right *)
Definition dot (n : nat) (a b : nat -> T) : T :=
  fold_left (fun s j => nadd s (nmul (a j) (b j))) (seq 0 n) nzero.
Definition multiplyClean_iter (n : nat) (A : nat -> nat -> T) (x : nat -> T) (b : nat -> T) (i : nat) : nat -> T :=
  let ref := dot n (fun j => nabs (A i j)) (fun j => nabs (x j)) in
  if nltb (nabs (b i)) (nmul ref neps) then set1 b i nzero else b.
Definition multiplyClean (m n : nat) (A : nat -> nat -> T) (x : nat -> T) : nat -> T :=
  let b := fun i => dot n (A i) x in
  fold_left (multiplyClean_iter n A x) (seq 0 m) b.
End MatUtil.

(** ** Matrices with their dimensions *)
Record matrix (T : Type) := Mat { rows : nat; cols : nat; entry : nat -> nat -> T }.
Arguments Mat {T}. Arguments rows {T}. Arguments cols {T}. Arguments entry {T}.
Definition msize {T} (A : matrix T) : nat := rows A * cols A.

Inductive structure := Zero | Dense | Diagonal.

(** Utils.cpp:588-601 *)
Definition isZeroMatrix {T} (A : matrix T) : bool := Nat.eqb (msize A) 0.
Definition isDiagonalMatrix {T} (A : matrix T) : bool := Nat.ltb 1 (msize A) && Nat.eqb (cols A) 1.
Definition isDenseMatrix {T} (A : matrix T) : bool := Nat.ltb 0 (msize A) && Nat.eqb (rows A) (cols A).
(** Utils.cpp:581-586 *)
Definition matrixStructure {T} (A : matrix T) : structure :=
  if isDenseMatrix A then Dense else if isDiagonalMatrix A then Diagonal else Zero.

(** Assignment to an Eigen::Ref: the target keeps its dimensions; assigning a
    matrix of other dimensions fails an assertion in a debug build and reads or
    writes out of range in a release build ([None]). *)
Definition ref_assign {T} (A B : matrix T) : option (matrix T) :=
  if Nat.eqb (rows A) (rows B) && Nat.eqb (cols A) (cols B) then Some (Mat (rows A) (cols A) (entry B)) else None.

(** Utils.cpp:603-611  operator<<= *)
Definition structured_assign {T} {N : Num T} (A B : matrix T) : option (matrix T) :=
  match matrixStructure B with
  | Dense => ref_assign A B
  | Diagonal => ref_assign A (Mat (rows B) (rows B) (fun i j => if Nat.eqb i j then entry B i 0 else nzero))
  | Zero => Some A
  end.

(** Utils.cpp:613-618; Eigen's resize leaves the entries unspecified when the size
    changes, the contents after it are an input. *)
Definition ensureMinimumDimension {T} (fresh : nat -> nat -> T) (A : matrix T) (r c : nat) : matrix T :=
  let m := Nat.max (rows A) r in
  let n := Nat.max (cols A) c in
  if Nat.eqb m (rows A) && Nat.eqb n (cols A) then A else Mat m n fresh.

Inductive outcome (A : Type) := Ok (a : A) | Throws.
Arguments Ok {A}. Arguments Throws {A}.

(** FixedMatrix.h:44-53, FixedMatrix = expression (a Matrix, a block, ...), and
    Utils.hpp:33-42 assignOrError: an exception, or the target's new contents *)
Definition fixed_assign {T} (A B : matrix T) : outcome (matrix T) :=
  if Nat.eqb (msize A) 0 && Nat.eqb (msize B) 0 then Ok A
  else if negb (Nat.eqb (rows A) (rows B)) || negb (Nat.eqb (cols A) (cols B)) then Throws
  else Ok B.
Definition assignOrError {T} (A B : matrix T) : outcome (matrix T) :=
  if Nat.eqb (msize A) 0 && Nat.eqb (msize B) 0 then Ok A
  else if negb (Nat.eqb (rows A) (rows B)) then Throws
  else if negb (Nat.eqb (cols A) (cols B)) then Throws
  else Ok B.

(** FixedMatrix = FixedMatrix.  The operator= of FixedMatrix.h:44 is a template and
    therefore not the copy assignment operator of the class; the implicitly declared
    one is the better match for an argument of the same class, and it calls the
    operator= of the base class Eigen::Matrix, which resizes the target. *)
Definition fixed_copy_assign {T} (A B : matrix T) : outcome (matrix T) := Ok B.
