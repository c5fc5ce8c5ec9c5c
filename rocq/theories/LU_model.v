(** Model of Optima/LU.cpp in exact arithmetic over a real field; eps stands for
    std::numeric_limits<double>::epsilon(). *)
From mathcomp Require Import all_ssreflect all_fingroup all_algebra.
Set Implicit Arguments.
Unset Strict Implicit.
Unset Printing Implicit Defensive.
Local Open Scope ring_scope.
Import Order.TTheory GRing.Theory Num.Theory.

Section LU.
Variables (F : realFieldType) (eps : F) (n : nat).

(** Eigen::FullPivLU (LU.cpp:42): permutations and the packed factors matrixLU() *)
Record lufac := LUFac { fP : 'S_n; fQ : 'S_n; fM : 'M[F]_n }.

(** LU.cpp:92 triangularView<UnitLower>; LU.cpp:93 triangularView<Upper> *)
Definition unit_lower (M : 'M[F]_n) : 'M[F]_n :=
  \matrix_(i, j) if (j < i)%N then M i j else (i == j)%:R.
Definition upper (M : 'M[F]_n) : 'M[F]_n := \matrix_(i, j) if (i <= j)%N then M i j else 0.

(** The workspace written by assembleU: U, the right-hand side y, is_li and rank *)
Record luws := LUWs { wU : 'M[F]_n; wy : 'cV[F]_n; wli : 'I_n -> bool; wrank : nat }.

(** LU.cpp:126-145, one iteration of the loop, k = n - i *)
Definition assemble_step (s : luws) (k : 'I_n) : luws :=
  if `|wU s k k| <= eps * `|wy s k 0| then                                              (* 136 *)
    LUWs (\matrix_(i, j)
            if (i == k) && (j == k) then 1                                              (* 140 *)
            else if (j == k) && (i < k)%N then 0                                        (* 139 U.col(k).head(k) *)
            else if (i == k) && (n - k <= j)%N then 0                                   (* 138 U.row(k).tail(k) *)
            else wU s i j)
         (\col_i if i == k then 0 else wy s i 0)                                        (* 141 *)
         (fun i => if i == k then false else wli s i)                                   (* 142 *)
         (wrank s).-1                                                                   (* 143 *)
  else s.

(** LU.cpp:107-146 assembleU; [rank0] is the value of the field rank before the call
    (LU.cpp:51 leaves it uninitialised), kept when n = 1 (lines 117-118) *)
Definition assembleU (rank0 : nat) (M : 'M[F]_n) (y : 'cV[F]_n) : luws :=
  if n == 1%N then LUWs M y (fun=> true) rank0
  else foldl assemble_step (LUWs M y (fun=> true) n) (rev (enum 'I_n)).

(** Triangular solve (LU.cpp:100): [None] if a diagonal entry is zero, in which case the
    code divides by zero *)
Definition upper_solve (U : 'M[F]_n) (y : 'cV[F]_n) : option 'cV[F]_n :=
  if [exists k, U k k == 0] then None else Some (invmx (upper U) *m y).

(** LU.cpp:97-98: y = L^-1 P b, the right-hand side after the forward elimination *)
Definition forward (f : lufac) (b : 'cV[F]_n) : 'cV[F]_n :=
  invmx (unit_lower (fM f)) *m row_perm (fP f) b.

(** LU.cpp:85-104 solve.  Returns x, is_li and rank. *)
Definition lu_solve_full (rank0 : nat) (f : lufac) (b : 'cV[F]_n) : option 'cV[F]_n * ('I_n -> bool) * nat :=
  let s := assembleU rank0 (fM f) (forward f b) in
  (omap (row_perm (fQ f)^-1%g) (upper_solve (wU s) (wy s)),                             (* 100-101 *)
   (fun i => wli s ((fQ f)^-1%g i)), wrank s).                                          (* 102 *)
Definition lu_solve (f : lufac) (b : 'cV[F]_n) : option 'cV[F]_n := (lu_solve_full 0 f b).1.1.

(** LU.cpp:198-206 the accessors P() and Q() *)
Definition lu_P (f : lufac) : 'S_n := fP f.
Definition lu_Q (f : lufac) : 'S_n := fP f.                                             (* 205 *)
End LU.
