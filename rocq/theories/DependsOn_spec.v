(** Specification vocabulary for C110: problems that differ where the calculation does not look. *)
From Coq Require Import List Reals.
From Verif Require Import Num Wrapper_model Wrapper_spec.

(** The results of two objective functions agree except, possibly, in the value of the function and the derivatives with
    respect to c; the results of two constraint functions agree except, possibly, in the derivatives with respect to c. *)
Definition same_o (r r' : ores R) : Prop :=
  forall i j, o_fx r' i = o_fx r i /\ o_fxx r' i j = o_fxx r i j /\ o_fxp r' i j = o_fxp r i j.
Definition same_c (r r' : cres R) : Prop :=
  forall i j, c_val r' i = c_val r i /\ c_ddx r' i j = c_ddx r i j /\ c_ddp r' i j = c_ddp r i j.

(** The problem P with other functions and other derivatives of the right-hand sides with respect to c *)
Definition exchange (P : problem R xreal) (r : option (list R -> list R -> list R -> unit)) (f : ofun R) (he hg v : cfun R) (bec bgc : nat -> nat -> R) : problem R xreal :=
  Problem (p_dims P) r (Some f) (Some he) (Some hg) (Some v) (p_Aex P) (p_Aep P) (p_Agx P) (p_Agp P) (p_be P) (p_bg P)
    (p_xlower P) (p_xupper P) (p_plower P) (p_pupper P) (p_c P) bec bgc.

(** (x, p) has the sizes of the problem and is within its bounds *)
Definition in_bounds (P : problem R xreal) (x p : list R) : Prop :=
  length x = d_x (p_dims P) /\ length p = d_p (p_dims P) /\ within (p_xlower P) (p_xupper P) x /\ within (p_plower P) (p_pupper P) p.

(** The functions do the same for the calculation at (x, p) *)
Definition same_at (P : problem R xreal) (f : ofun R) (he hg v : cfun R) (x p : list R) : Prop :=
  same_o (ovalue (uf P) x p (p_c P)) (ovalue f x p (p_c P)) /\ same_c (value (uhe P) x p (p_c P)) (value he x p (p_c P)) /\
  same_c (value (uhg P) x p (p_c P)) (value hg x p (p_c P)) /\ same_c (value (uv P) x p (p_c P)) (value v x p (p_c P)).
(** They also have the same derivatives with respect to c *)
Definition same_dc (P : problem R xreal) (f : ofun R) (he hg v : cfun R) (x p : list R) : Prop :=
  forall i k, o_fxc (ovalue f x p (p_c P)) i k = o_fxc (ovalue (uf P) x p (p_c P)) i k /\
    c_ddc (value he x p (p_c P)) i k = c_ddc (value (uhe P) x p (p_c P)) i k /\
    c_ddc (value hg x p (p_c P)) i k = c_ddc (value (uhg P) x p (p_c P)) i k /\
    c_ddc (value v x p (p_c P)) i k = c_ddc (value (uv P) x p (p_c P)) i k.

(** P with the constant a added to the objective function *)
Definition shifted (a : R) (f : ofun R) : ofun R := fun x p c r =>
  let q := f x p c r in ORes (o_f q + a)%R (o_fx q) (o_fxx q) (o_fxp q) (o_fxc q) (o_diag q) (o_basic q) (o_ok q).
Definition plus_constant (P : problem R xreal) (a : R) : problem R xreal :=
  Problem (p_dims P) (p_r P) (option_map (shifted a) (p_f P)) (p_he P) (p_hg P) (p_v P) (p_Aex P) (p_Aep P) (p_Agx P) (p_Agp P)
    (p_be P) (p_bg P) (p_xlower P) (p_xupper P) (p_plower P) (p_pupper P) (p_c P) (p_bec P) (p_bgc P).
