(** Model of Optima/Echelonizer.cpp on any kind of number, in particular on doubles: the calls
    that change R, S and Q after compute.  Entries of R and S are functions of row and column; only
    the top nb = rank(A) rows of R are kept, the code changes no others (Echelonizer.cpp:205-207,
    228, 279; 336-337 changes all rows of R, of which the top ones are modelled).
    [ms a b c] is a - b*c, which a compiler may or may not fuse. *)
From Coq Require Import List Arith Bool ZArith.
From Verif Require Import Num.
Import ListNotations.

Section Echelonizer.
Context {T : Type} {N : Num T}.
Variable ms : T -> T -> T -> T.

(** The fields R, S, Q (Echelonizer.cpp:47-59) *)
Record fech := FEch { eR : nat -> nat -> T; eS : nat -> nat -> T; eQ : nat -> nat }.

(** Echelonizer.cpp:205-207 and 210-212: row ib is multiplied by aux; S(i,in) times the new row
    ib is subtracted from every other row i *)
Definition f_rows (X S : nat -> nat -> T) (ib jn : nat) (i l : nat) : T :=
  let aux := ndiv none1 (S ib jn) in
  if Nat.eqb i ib then nmul (X ib l) aux else ms (X i l) (S i jn) (nmul (X ib l) aux).

(** Echelonizer.cpp:176-218 updateWithSwapBasicVariable *)
Definition f_swap (nb : nat) (e : fech) (ib jn : nat) : fech :=
  let S := eS e in
  let aux := ndiv none1 (S ib jn) in                                          (* 202 *)
  FEch (f_rows (eR e) S ib jn)                                                (* 205-207 *)
       (fun i j => if Nat.eqb j jn
                   then (if Nat.eqb i ib then aux else nmul (nopp (S i jn)) aux)  (* 198, 213-214 *)
                   else f_rows S S ib jn i j)                                 (* 210-212 *)
       (fun p => if Nat.eqb p ib then eQ e (nb + jn)                          (* 217 *)
                 else if Nat.eqb p (nb + jn) then eQ e ib else eQ e p).

(** Echelonizer.cpp:298-328 updateOrdering, also 273-286 *)
Definition f_order (nb : nat) (e : fech) (Kb Kn : nat -> nat) : fech :=
  FEch (fun i l => eR e (Kb i) l) (fun i j => eS e (Kb i) (Kn j))
       (fun p => if Nat.ltb p nb then eQ e (Kb p) else eQ e (nb + Kn (p - nb))).

(** Echelonizer.cpp:331-338 cleanResidualRoundoffErrors *)
Definition f_clean1 (sigma x : T) : T := nsub (nadd x sigma) sigma.
Definition f_clean (sigma : T) (e : fech) : fech :=
  FEch (fun i l => f_clean1 sigma (eR e i l)) (fun i j => f_clean1 sigma (eS e i j)) (eQ e).

(** Echelonizer.cpp:239-253 find_nonbasic_candidate: the largest weight, and its position *)
Definition f_candidate (th : T) (nb nn : nat) (w : nat -> T) (e : fech) (i : nat) : T * nat :=
  fold_left (fun acc k =>
    if nleb (nabs (eS e i k)) th then acc
    else let tmp := w (eQ e (nb + k)) in if nltb (fst acc) tmp then (tmp, k) else acc)
    (seq 0 nn) (nopp ninf, 0).

(** Echelonizer.cpp:256-263 *)
Definition f_pass (th : T) (nb nn : nat) (w : nat -> T) (e : fech) (i : nat) : fech :=
  let c := f_candidate th nb nn w e i in
  if nltb (w (eQ e i)) (fst c) then f_swap nb e i (snd c) else e.

(** Echelonizer.cpp:221-287 updateWithPriorityWeights; Kb and Kn are the results of the two
    std::sort calls (266-271) *)
Definition f_weights (th : T) (nb nn : nat) (w : nat -> T) (e : fech) (Kb Kn : nat -> nat) : fech :=
  f_order nb (fold_left (f_pass th nb nn w) (seq 0 nb) e) Kb Kn.

(** One change of the echelon form *)
Inductive f_op := FSwap (ib jn : nat) | FOrder (Kb Kn : nat -> nat) | FClean (sigma : T).
Definition f_step (nb : nat) (e : fech) (o : f_op) : fech :=
  match o with
  | FSwap ib jn => f_swap nb e ib jn
  | FOrder Kb Kn => f_order nb e Kb Kn
  | FClean sigma => f_clean sigma e
  end.
Definition f_run (nb : nat) (e : fech) (ops : list f_op) : fech := fold_left (f_step nb) ops e.
End Echelonizer.
Arguments fech : clear implicits.
Arguments f_op : clear implicits.
