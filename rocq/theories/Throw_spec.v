(** Specification vocabulary for C108: exceptions thrown by the user's functions. *)
From Coq Require Import List.
From Verif Require Import Num Index_model Loop_model Wrapper_model Throw_model.
Import ListNotations.

(** the same functions without exceptions *)
Definition quiet_update {T W : Type} (fupdate : W -> uvec T -> W * bool) (w : W) (u : uvec T) : W := fst (fupdate w u).
Definition quiet_outcome (o : option bool) : bool := match o with Some b => b | None => false end.
Definition quiet_phi {T W : Type} (phi : option (W -> list T -> list T -> W * option bool * list T)) : option (W -> list T -> list T -> W * bool * list T) :=
  match phi with
  | None => None
  | Some ph => Some (fun w xo x => let r := ph w xo x in (fst (fst r), quiet_outcome (snd (fst r)), snd r))
  end.
Definition quiet_check {T W : Type} (check : option (W -> uvec T -> uvec T -> T -> nat -> option bool)) : option (W -> uvec T -> uvec T -> T -> nat -> bool) :=
  match check with None => None | Some c => Some (fun w uo u e k => quiet_outcome (c w uo u e k)) end.

(** no call throws *)
Definition never_throw {T W : Type} (fupdate : W -> uvec T -> W * bool) (phi : option (W -> list T -> list T -> W * option bool * list T))
    (check : option (W -> uvec T -> uvec T -> T -> nat -> option bool)) : Prop :=
  (forall w u, snd (fupdate w u) = false) /\
  (forall ph w xo x, phi = Some ph -> snd (fst (ph w xo x)) <> None) /\
  (forall c w uo u e k, check = Some c -> c w uo u e k <> None).

(** the call that threw: an evaluation of the problem's functions at the point left in u; the transformation, which left its x in
    u; or the convergence check at the point left in u *)
Definition threw_at {T W : Type} (fupdate : W -> uvec T -> W * bool) (phi : option (W -> list T -> list T -> W * option bool * list T))
    (check : option (W -> uvec T -> uvec T -> T -> nat -> option bool)) (s : state T W) : Prop :=
  (exists w, fupdate w (s_u s) = (s_w s, true)) \/
  (exists ph w xo x, phi = Some ph /\ ph w xo x = (s_w s, None, ux (s_u s))) \/
  (exists c, check = Some c /\ c (s_w s) (s_uo s) (s_u s) (s_err s) (s_iters s) = None).

(** the same values of x, p, the multipliers and the slack variables *)
Definition same_point {T : Type} (a b : ustate T) : Prop :=
  (s_x a, s_p a, s_ye a, s_yg a, s_ze a, s_zg a, s_xbg a, s_xhg a) = (s_x b, s_p b, s_ye b, s_yg b, s_ze b, s_zg b, s_xbg b, s_xhg b).
