(** EchelonizerW as an object: the ranks are found at run time and the state is the history of
    updates (Echelonizer.cpp, EchelonizerExtended.cpp and EchelonizerW.cpp together; the
    operations are those of Echelon_model.v and EchelonExt_model.v).

    Exact arithmetic over a real field.  Parameters: the LU factorization (Eigen::FullPivLU
    with the rank found by numBasicVariables) and std::sort; see EchelonO_spec.v for what is
    assumed of them.  [th] is the threshold of Echelonizer.cpp:91 and [sigma] the number of
    cleanResidualRoundoffErrors. *)
From Coq Require Import List.
From mathcomp Require Import all_ssreflect all_algebra.
From Verif Require Import Echelon_model EchelonExt_model Canonical_model EchelonW_model.
Set Implicit Arguments.
Unset Strict Implicit.
Unset Printing Implicit Defensive.
Local Open Scope ring_scope.

(** the upper left corner of a matrix *)
Definition mxof (F : realFieldType) p q (W : rawmx F) : 'M[F]_(p, q) := \matrix_(i, j) W i j.

(** The result of FullPivLU on an m x n matrix: the rank, at most m and n, and the factors. *)
Record lures (F : realFieldType) (m n : nat) := LURes {
  lr : nat; lrm : (lr <= m)%N; lrn : (lr <= n)%N; lf : lufactors F lr (m - lr) (n - lr) }.
(** lu.compute(A) (Echelonizer.cpp:128) *)
Definition lu_impl (F : realFieldType) := forall m n, rawmx F -> lures F m n.
(** std::sort of the positions [K] (Echelonizer.cpp:266-271, EchelonizerExtended.cpp:176-181)
    in descending order of the weights [v] *)
Definition sort_impl (F : realFieldType) := forall k, ('I_k -> F) -> ('I_k -> 'I_k) -> 'I_k -> 'I_k.

(** an equal number of non-basic variables, written differently *)
Definition ech_cast (F : realFieldType) nb md n n' (E : n = n') (e : ech F nb md n) : ech F nb md n' :=
  match E in _ = k return ech F nb md k with erefl => e end.

Section Object.
Variables (F : realFieldType) (lu : lu_impl F) (srt : sort_impl F) (th sigma : F).

(** ** Echelonizer, with the members Kb and Kn that keep the order of the last sort *)
Record echk nb md nn := EchK { ke : ech F nb md nn; kKb : 'I_nb -> 'I_nb; kKn : 'I_nn -> 'I_nn }.
(** Echelonizer.cpp:111-173 (162-163 for Kb and Kn) *)
Definition k_compute nb md nn (f : lufactors F nb md nn) : echk nb md nn := EchK (ech_compute f) id id.
(** Echelonizer.cpp:221-287 *)
Definition k_weights nb md nn (w : 'I_(nb + nn) -> F) (s : echk nb md nn) : echk nb md nn :=
  let e := weight_swaps th w (ke s) in                                          (* 256-263 *)
  let Kb := srt (fun i => w (eQ e (lshift nn i))) (kKb s) in                     (* 266-267 *)
  let Kn := srt (fun j => w (eQ e (rshift nb j))) (kKn s) in                     (* 270-271 *)
  EchK (ech_order e Kb Kn) Kb Kn.                                               (* 273-286 *)

(** ** EchelonizerExtended and EchelonizerW, for a matrix A with ny rows and nx columns and
    matrices J with nz rows *)
Variables (ny nx nz np : nat) (A : rawmx F).
Let fA : lures F ny nx := lu ny nx A.                                           (* EchelonizerExtended.cpp:67 *)
Let rA := lr fA.
Let nA := (nx - rA)%N.

(** echelonizerJ: the matrix last computed, its rank and its form *)
Record jstate := JState { jM : 'M[F]_(nz, nA); jr : nat; jrm : (jr <= nz)%N; jrn : (jr <= nA)%N; jk : echk jr (nz - jr) (nA - jr) }.
(** echelonizerA and echelonizerJ (None: nothing computed so far) *)
Record ostate := OState { oA : echk rA (ny - rA) nA; oJ : option jstate }.

(** EchelonizerExtended.cpp:64-76 *)
Definition o_init : ostate := OState (k_compute (lf fA)) None.

(** Echelonizer.cpp:111-117: compute does nothing for the matrix it has *)
Definition j_compute (old : option jstate) (J2 : 'M[F]_(nz, nA)) : jstate :=
  let new := let f := lu nz nA (rawm J2) in JState J2 (lrm f) (lrn f) (k_compute (lf f)) in
  match old with Some j => if jM j == J2 then j else new | None => new end.

(** EchelonizerExtended.cpp:104-107: the reduced J, with the functions of EchelonExt_model.v
    taken for nbJ = 0 (they do not depend on the rank of J) *)
Definition o_J2 (eA : ech F rA (ny - rA) nA) (J : rawmx F) : 'M[F]_(nz, nA) := @J2of F rA (ny - rA) 0 nz nA eA (mxof _ _ J).

(** EchelonizerExtended.cpp:111 *)
Definition j_weights (j : jstate) (w : 'I_nA -> F) : jstate :=
  JState (jM j) (jrm j) (jrn j) (k_weights (fun p => w (cast_ord (subnKC (jrn j)) p)) (jk j)).

(** EchelonizerExtended.cpp:78-200 updateWithPriorityWeights, what it does to the two echelonizers *)
Definition o_update (s : ostate) (J : rawmx F) (w : rawvec F) : ostate :=
  let kA := k_weights (fun j => w j) (oA s) in                                   (* 80 *)
  if (nz * nx == 0)%N then OState kA (oJ s)                                     (* 82-88 *)
  else OState kA (Some (j_weights (j_compute (oJ s) (o_J2 (ke kA) J))           (* 110-111 *)
                          (fun j => w (eQ (ke kA) (rshift rA j))))).            (* 109 *)

(** EchelonizerExtended.cpp:126-199: R, S, Q for the echelonizers as they are; the sorts of
    lines 176-181 begin with identities (169-170) *)
Definition o_ext (kA : echk rA (ny - rA) nA) (j : jstate) (J : rawmx F) (w : rawvec F) : xech F rA (ny - rA) (jr j) (nz - jr j) (nA - jr j) :=
  let x := ext_assemble (ech_cast (esym (subnKC (jrn j))) (ke kA)) (ke (jk j)) (mxof _ _ J) in
  ext_order x (srt (fun i => w (xQ x (lshift _ i))) id) (srt (fun i => w (xQ x (rshift _ i))) id).

(** EchelonizerExtended.cpp:82-88 and EchelonizerW.cpp:92-105, 139-156: the view for an empty J *)
Definition o_view0 (e : ech F rA (ny - rA) nA) (Wp : rawmx F) : rwq F :=
  let y := ech_clean sigma e in
  RWQ (rawm (eR y)) (rawm (eS y)) (rawm (clean_mx sigma (eR y *m mxof _ np Wp)))
      (List.map (fun i => nat_of_ord (eQ y (lshift nA i))) (enum 'I_rA))
      (List.map (fun j => nat_of_ord (eQ y (rshift rA j))) (enum 'I_nA)).

(** EchelonizerW.cpp:91-105, 139-156: the view after an update ([oJ s] belongs to this J) *)
Definition o_view (s : ostate) (J Wp : rawmx F) (w : rawvec F) : rwq F :=
  match (if (nz * nx == 0)%N then None else oJ s) with
  | None => o_view0 (ke (oA s)) Wp
  | Some j => ew_view sigma (o_ext (oA s) j J w) (mxof _ np Wp)
  end.

(** The object is made by EchelonizerW::initialize (EchelonizerW.cpp:42-67) and then updated:
    what it holds is a function of the updates [h] since. *)
Definition o_run (h : list (rawmx F * rawvec F)) : ostate := List.fold_left (fun s a => o_update s a.1 a.2) h o_init.

(** EchelonizerW.cpp:69-106 update(Jx, Jp, weights) after the updates [h] *)
Definition o_ech (h : list (rawmx F * rawvec F)) (Wx Wp : rawmx F) (w : rawvec F) : list (rawmx F * rawvec F) * rwq F :=
  let J : rawmx F := fun i j => Wx (ny + i)%N j in
  let h' := List.app h (List.cons (J, w) List.nil) in
  (h', o_view (o_run h') J Wp w).
End Object.
