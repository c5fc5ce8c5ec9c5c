(** Model of Optima/ErrorStatus.cpp on the arithmetic of Num.v. *)
From Coq Require Import List Bool.
From Verif Require Import Num.
Import ListNotations.

Section ErrorStatus.
Context {T : Type} {N : Num T}.

(** ErrorStatusOptions.hpp:23-33 *)
Record esopts := EsOpts { significantly_increased : T; significantly_decreased : T; significantly_increased_initial : T }.

(** ErrorStatus.cpp:26-38.  [es_ok] is not in the code: it becomes false when an assertion of
    sanitycheck fails (a build with NDEBUG goes on). *)
Record estatus := EStatus { es_opts : esopts; es_first : T; es_prev : T; es_err : T; es_ok : bool }.

(** ErrorStatus.cpp:84-92 *)
Definition sane (o : esopts) (first prev err : T) : bool :=
  ngtb (significantly_increased o) nzero && ngtb (significantly_decreased o) nzero &&
  ngtb (significantly_increased_initial o) nzero && ngtb first nzero && nleb nzero prev && nleb nzero err.

(** std::isinf *)
Definition isinf (x : T) : bool := negb (nfinite x) && negb (nnan x).

(** ErrorStatus.cpp:28-41: a new object *)
Definition es_new (dflt : esopts) : estatus := EStatus dflt ninf ninf ninf true.
(** ErrorStatus.cpp:113-116 *)
Definition es_setOptions (o : esopts) (s : estatus) : estatus := EStatus o (es_first s) (es_prev s) (es_err s) (es_ok s).
(** ErrorStatus.cpp:43-49 *)
Definition es_initialize (s : estatus) : estatus :=
  EStatus (es_opts s) ninf ninf ninf (es_ok s && sane (es_opts s) ninf ninf ninf).
(** ErrorStatus.cpp:51-58 *)
Definition es_update (e : T) (s : estatus) : estatus :=
  let first := if isinf (es_first s) then e else es_first s in
  let prev := es_err s in
  EStatus (es_opts s) first prev e (es_ok s && sane (es_opts s) first prev e).

(** ErrorStatus.cpp:60-82 *)
Definition errorHasDecreased (s : estatus) : bool := nltb (es_err s) (es_prev s).
Definition errorHasDecreasedSignificantly (s : estatus) : bool :=
  nltb (es_err s) (nmul (significantly_decreased (es_opts s)) (es_prev s)).
Definition errorHasIncreased (s : estatus) : bool := ngtb (es_err s) (es_prev s).
Definition errorHasIncreasedSignificantly (s : estatus) : bool :=
  ngtb (es_err s) (nmul (significantly_increased (es_opts s)) (es_prev s)).
Definition errorIsntFinite (s : estatus) : bool := negb (nfinite (es_err s)).

(** a sequence of calls *)
Inductive esop := SetOptions (o : esopts) | Initialize | Update (e : T).
Definition es_do (s : estatus) (c : esop) : estatus :=
  match c with SetOptions o => es_setOptions o s | Initialize => es_initialize s | Update e => es_update e s end.
Definition es_run (s : estatus) (cs : list esop) : estatus := fold_left es_do cs s.
End ErrorStatus.
Arguments esopts : clear implicits.
Arguments estatus : clear implicits.
Arguments esop : clear implicits.
