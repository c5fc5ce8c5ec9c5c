(** Specification vocabulary for C62 and C72. *)
From Coq Require Import List String Arith.
Import ListNotations.

(** [part] begins at column [c] of [line] *)
Definition at_column (c : nat) (part line : string) : Prop :=
  exists before after, line = String.append before (String.append part after) /\ String.length before = c.

(** the number of characters a column takes: that of the separator, or at least [width] and at
    least four more than the heading *)
Definition takes (sep : string) (width : nat) (heading : string) : nat :=
  if String.eqb heading sep then String.length sep else Nat.max width (String.length heading + 4).
(** where the column number k begins *)
Fixpoint column (sep : string) (width : nat) (headings : list string) (k : nat) : nat :=
  match k, headings with
  | S k, h :: headings => takes sep width h + column sep width headings k
  | _, _ => 0
  end.

(** the heading prefix[name] over each value; without names the indices are used *)
Definition labelled (num : nat -> string) (prefix : string) (names values : list string) : list (string * string) :=
  combine (map (fun n => String.append prefix (String.append "[" (String.append n "]")))
               (match names with [] => map num (seq 0 (List.length values)) | _ => names end)) values.
