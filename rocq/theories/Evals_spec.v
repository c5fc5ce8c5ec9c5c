(** How often each of the user's functions is called. *)
From Coq Require Import List Arith Bool.
From Verif Require Import Num Loop_model Wrapper_model.

Definition callee_dec (a b : callee) : {a = b} + {a <> b}.
Proof. decide equality. Defined.

(** the calls of the user's function [f] made by evaluations at the points [us] *)
Definition calls_of {T} (d : dims) (f : callee) (us : list (uvec T)) : nat :=
  length (filter (fun c => if callee_dec f (fst c) then true else false) (flat_map (fun u => user_calls d (ux u)) us)).
