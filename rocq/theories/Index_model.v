(** Model of Optima/IndexUtils.hpp, Optima/StablePartition.cpp and
    Optima/Stability.cpp.  Index vectors are lists of [nat]; a function that
    permutes its argument in place returns the new contents. *)
From Coq Require Import List Arith Bool ZArith.
Import ListNotations.
From Verif Require Import Num.

(** An implementation of std::partition: given a predicate and the contents of
    the range, the contents after the call and the position returned (as an
    offset).  The C++ standard fixes only the contract [partition_contract] of
    Index_spec.v, so the models take the implementation as an argument. *)
Definition partition_impl := (nat -> bool) -> list nat -> list nat * nat.

(** std::stable_partition is determined by the standard: the relative order is
    kept in both groups. *)
Definition std_stable_partition (p : nat -> bool) (l : list nat) : list nat * nat :=
  (filter p l ++ filter (fun i => negb (p i)) l, length (filter p l)).

(** IndexUtils.hpp:30-33  indices(length) = 0,1,...,length-1 *)
Definition indices (n : nat) : list nat := seq 0 n.

(** IndexUtils.hpp:36-42  contains: linear search with ==, found iff before end *)
Fixpoint contains (i : nat) (l : list nat) : bool :=
  match l with
  | [] => false
  | j :: l' => if Nat.eqb j i then true else contains i l'
  end.

Section WithPartition.
Variable part : partition_impl.

(** IndexUtils.hpp:49-52 *)
Definition moveLeftIf (base : list nat) (p : nat -> bool) : list nat * nat := part p base.

(** IndexUtils.hpp:59-62 *)
Definition stableMoveLeftIf (base : list nat) (p : nat -> bool) : list nat * nat :=
  std_stable_partition p base.

(** IndexUtils.hpp:69-74 *)
Definition moveIntersectionLeft (base p : list nat) : list nat * nat :=
  if Nat.eqb (length p) 0 then (base, length base)
  else moveLeftIf base (fun i => contains i p).

(** IndexUtils.hpp:81-84 *)
Definition moveRightIf (base : list nat) (p : nat -> bool) : list nat * nat :=
  part (fun i => negb (p i)) base.

(** IndexUtils.hpp:91-94 *)
Definition stableMoveRightIf (base : list nat) (p : nat -> bool) : list nat * nat :=
  std_stable_partition (fun i => negb (p i)) base.

(** IndexUtils.hpp:101-106 *)
Definition moveIntersectionRight (base p : list nat) : list nat * nat :=
  if Nat.eqb (length p) 0 then (base, length base)
  else moveRightIf base (fun i => contains i p).

(** IndexUtils.hpp:113-124 *)
Definition moveIntersectionLeftStable (base p : list nat) : list nat * nat :=
  if Nat.eqb (length p) 0 then (base, length base)
  else std_stable_partition (fun i => contains i p) base.

(** IndexUtils.hpp:131-142 *)
Definition moveIntersectionRightStable (base p : list nat) : list nat * nat :=
  if Nat.eqb (length p) 0 then (base, length base)
  else std_stable_partition (fun i => negb (contains i p)) base.

(** IndexUtils.hpp:145-150 *)
Definition difference (indices1 indices2 : list nat) : list nat :=
  let '(tmp, idx) := moveIntersectionRight indices1 indices2 in firstn idx tmp.

(** IndexUtils.hpp:153-158: tmp.tail(tmp.size() - idx) *)
Definition intersect (indices1 indices2 : list nat) : list nat :=
  let '(tmp, idx) := moveIntersectionRight indices1 indices2 in
  skipn (length tmp - (length tmp - idx)) tmp.

(** IndexUtils.hpp:161-167: early return on the first common index *)
Fixpoint isIntersectionEmpty (indices1 indices2 : list nat) : bool :=
  match indices1 with
  | [] => true
  | i :: rest => if contains i indices2 then false else isIntersectionEmpty rest indices2
  end.

(** ** StablePartition.cpp *)

(** StablePartition.cpp:28-32 *)
Record stable_partition := { sp_jsu : list nat; sp_ns : nat }.

(** StablePartition.cpp:35-37 *)
Definition sp_init (nx : nat) : stable_partition := {| sp_jsu := indices nx; sp_ns := nx |}.

(** StablePartition.cpp:39-43.  The assertion of line 42 is the boolean
    [sp_setStable_assert]; it is not evaluated in a release build. *)
Definition sp_setStable (s : stable_partition) (js : list nat) : stable_partition :=
  let '(jsu, ns) := moveIntersectionLeft (sp_jsu s) js in {| sp_jsu := jsu; sp_ns := ns |}.
Definition sp_setStable_assert (s : stable_partition) (js : list nat) : bool :=
  Nat.eqb (sp_ns (sp_setStable s js)) (length js).

(** StablePartition.cpp:45-49, assertion of line 48 *)
Definition sp_setUnstable (s : stable_partition) (ju : list nat) : stable_partition :=
  let '(jsu, ns) := moveIntersectionRight (sp_jsu s) ju in {| sp_jsu := jsu; sp_ns := ns |}.
Definition sp_setUnstable_assert (s : stable_partition) (ju : list nat) : bool :=
  Nat.eqb (sp_ns (sp_setUnstable s ju)) (length (sp_jsu (sp_setUnstable s ju)) - length ju).

(** StablePartition.cpp:51-54 *)
Definition sp_stable (s : stable_partition) : list nat := firstn (sp_ns s) (sp_jsu s).

(** StablePartition.cpp:56-60: nu = jsu.size() - ns; jsu.tail(nu) *)
Definition sp_unstable (s : stable_partition) : list nat :=
  skipn (length (sp_jsu s) - (length (sp_jsu s) - sp_ns s)) (sp_jsu s).

(** One call on a StablePartition object and a history of calls *)
Inductive sp_call := SetStable (js : list nat) | SetUnstable (ju : list nat).
Definition sp_step (s : stable_partition) (c : sp_call) : stable_partition :=
  match c with SetStable js => sp_setStable s js | SetUnstable ju => sp_setUnstable s ju end.
Definition sp_run (nx : nat) (h : list sp_call) : stable_partition :=
  fold_left sp_step h (sp_init nx).

(** ** Stability.cpp *)

Section Stability.
Context {T : Type} {N : Num T}.

(** Dot product of a column of Wx with w, summed from left to right.
    Simplification: Eigen may associate the additions differently. *)
Fixpoint dotsum (acc : T) (a b : list T) : T :=
  match a, b with
  | x :: a', y :: b' => dotsum (nadd acc (nmul x y)) a' b'
  | _, _ => acc
  end.

(** Stability.cpp:45  s = g + tr(Wx)*w.  Wx is the list of its rows; column i of
    Wx is [map (fun row => nth i row 0) Wx]. *)
Definition stab_s (Wx : list (list T)) (g w : list T) : list T :=
  map (fun i => nadd (nth i g nzero)
                     (dotsum nzero (map (fun row => nth i row nzero) Wx) w))
      (seq 0 (length g)).

(** Stability.cpp:47-49 *)
Definition is_lower_unstable (x xlower s : list T) (i : nat) : bool :=
  neqb (nth i x nzero) (nth i xlower nzero) && ngtb (nth i s nzero) nzero.
Definition is_upper_unstable (x xupper s : list T) (i : nat) : bool :=
  neqb (nth i x nzero) (nth i xupper nzero) && nltb (nth i s nzero) nzero.
Definition is_meta_stable (x xlower xupper s : list T) (i : nat) : bool :=
  is_lower_unstable x xlower s i || is_upper_unstable x xupper s i.

(** Stability.hpp:59-65 *)
Record stability := {
  st_jsu : list nat; st_ns : nat; st_nbs : nat; st_nlu : nat; st_nuu : nat; st_nms : nat;
  st_s : list T }.

(** Stability.cpp:35-108.  The partitions of the views jbs = jsu.head(nbs),
    jnsu = jsu.tail(nn) and jnsu.head(pos1) change those parts of jsu in place. *)
Definition stability_update (Wx : list (list T)) (g x w xlower xupper : list T)
    (jb : list nat) : stability :=
  let nx := length x in
  let s := stab_s Wx g w in
  let jsu0 := indices nx in                                            (* 69 *)
  let '(jsu1, nbs) := moveIntersectionLeft jsu0 jb in                  (* 73 *)
  let jbs := firstn nbs jsu1 in                                        (* 79 *)
  let '(jbs', nss) := moveRightIf jbs (is_meta_stable x xlower xupper s) in   (* 82 *)
  let nn := nx - nbs in                                                (* 85 *)
  let jnsu := skipn (nx - nn) jsu1 in                                  (* 88: tail(nn) *)
  let '(jnsu', pos1) := moveRightIf jnsu (is_upper_unstable x xupper s) in    (* 91 *)
  let '(jnsu'', pos2) := moveRightIf (firstn pos1 jnsu') (is_lower_unstable x xlower s) in (* 92 *)
  {| st_jsu := jbs' ++ jnsu'' ++ skipn pos1 jnsu';
     st_ns := nbs + pos2;                                              (* 95 *)
     st_nbs := nbs;
     st_nuu := nn - pos1;                                              (* 98 *)
     st_nlu := pos1 - pos2;                                            (* 101 *)
     st_nms := nbs - nss;                                              (* 104 *)
     st_s := s |}.

(** Stability.cpp:76 and 107: the assertions of a debug build.  When the first
    one fails a debug build aborts. *)
Definition stability_assert_76 (nx : nat) (jb : list nat) : bool :=
  Nat.eqb (snd (moveIntersectionLeft (indices nx) jb)) (length jb).

(** v.tail(n) *)
Definition vtail {A} (n : nat) (l : list A) : list A := skipn (length l - n) l.

(** Stability.cpp:110-119  status() *)
Definition status_js (t : stability) : list nat := firstn (st_ns t) (st_jsu t).
Definition status_jms (t : stability) : list nat :=
  vtail (st_nms t) (firstn (st_nbs t) (status_js t)).
Definition status_ju (t : stability) : list nat := vtail (st_nlu t + st_nuu t) (st_jsu t).
Definition status_jlu (t : stability) : list nat := firstn (st_nlu t) (status_ju t).
Definition status_juu (t : stability) : list nat := vtail (st_nuu t) (status_ju t).
End Stability.

End WithPartition.

(** ** libstdc++'s std::partition for bidirectional iterators (bits/stl_algo.h,
    __partition with bidirectional_iterator_tag): scan from the left for an
    element outside group 1, from the right for one inside, swap, repeat.  Not
    in /repo; given to show that the contract has an executable realisation. *)
Fixpoint span_true (p : nat -> bool) (l : list nat) : list nat * list nat :=
  match l with
  | [] => ([], [])
  | x :: l' => if p x then let '(a, b) := span_true p l' in (x :: a, b) else ([], l)
  end.

(** Split [l] as mid ++ y :: suffix with y the last element satisfying [p]. *)
Fixpoint split_last (p : nat -> bool) (l : list nat) : option (list nat * nat * list nat) :=
  match l with
  | [] => None
  | x :: l' =>
      match split_last p l' with
      | Some (m, y, t) => Some (x :: m, y, t)
      | None => if p x then Some ([], x, l') else None
      end
  end.

(** The loop runs on explicit fuel; [libstdcxx_partition] gives it the length of
    the range, which is always enough (Index_proofs.v). *)
Fixpoint part_loop (fuel : nat) (p : nat -> bool) (l : list nat) : list nat * nat :=
  match fuel with
  | 0 => (l, 0)
  | S fuel' =>
      let '(pre, rest) := span_true p l in
      match rest with
      | [] => (pre, length pre)
      | x :: r =>
          match split_last p r with
          | None => (pre ++ rest, length pre)
          | Some (m, y, t) =>
              let '(m', k) := part_loop fuel' p m in
              (pre ++ y :: m' ++ x :: t, length pre + 1 + k)
          end
      end
  end.
Definition libstdcxx_partition : partition_impl := fun p l => part_loop (S (length l)) p l.
