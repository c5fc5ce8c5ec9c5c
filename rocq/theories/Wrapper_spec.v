(** Specification vocabulary for C56-C60, C63 and C70, C71. *)
From Coq Require Import List Arith Bool Reals.
From Verif Require Import Num Wrapper_model.
Import ListNotations.

(** [[Aex, 0, 0], [Agx, I, 0]] *)
Definition documented_Ax {T} {N : Num T} (d : dims) (Aex Agx : nat -> nat -> T) (i j : nat) : T :=
  if j <? d_x d then (if i <? d_be d then Aex i j else Agx (i - d_be d) j)
  else if j <? d_x d + d_bg d then (if i <? d_be d then nzero else if i - d_be d =? j - d_x d then none1 else nzero)
  else nzero.

(** What a constraint function returns when it is called with a cleared result *)
Definition value {T} {N : Num T} (fn : cfun T) (x p c : list T) : cres T := fn x p c czero.
Definition ovalue {T} {N : Num T} (fn : ofun T) (x p c : list T) : ores T := fn x p c ozero.

Local Open Scope R_scope.
Fixpoint sum (n : nat) (f : nat -> R) : R := match n with O => 0 | S k => sum k f + f k end.
Definition at_ (l : list R) (i : nat) : R := nth i l 0.
Definition bd (l : list xreal) (i : nat) : xreal := nth i l XNaN.
Definition within (lo hi : list xreal) (x : list R) : Prop :=
  forall i, (i < length x)%nat -> xleb (bd lo i) (XF (at_ x i)) = true /\ xleb (XF (at_ x i)) (bd hi i) = true.

(** The functions of a problem; a function that is not set is never called *)
Definition uf (P : problem R xreal) := oget (p_f P).
Definition uhe (P : problem R xreal) := cget (p_he P).
Definition uhg (P : problem R xreal) := cget (p_hg P).
Definition uv (P : problem R xreal) := cget (p_v P).

(** Left-hand side i of the linear constraints *)
Definition lin (nx np : nat) (Ax Ap : nat -> nat -> R) (x p : list R) (i : nat) : R :=
  sum nx (fun j => Ax i j * at_ x j) + sum np (fun k => Ap i k * at_ p k).

(** The user's constraints at (x, p) *)
Definition user_feasible (P : problem R xreal) (x p : list R) : Prop :=
  let d := p_dims P in
  (forall i, (i < d_be d)%nat -> lin (d_x d) (d_p d) (p_Aex P) (p_Aep P) x p i = at_ (p_be P) i) /\
  (forall i, (i < d_bg d)%nat -> lin (d_x d) (d_p d) (p_Agx P) (p_Agp P) x p i >= at_ (p_bg P) i) /\
  (forall i, (i < d_he d)%nat -> c_val (value (uhe P) x p (p_c P)) i = 0) /\
  (forall i, (i < d_hg d)%nat -> c_val (value (uhg P) x p (p_c P)) i >= 0) /\
  (forall i, (i < d_p d)%nat -> c_val (value (uv P) x p (p_c P)) i = 0) /\
  within (p_xlower P) (p_xupper P) x /\ within (p_plower P) (p_pupper P) p.

(** The constraints of a master problem at (x, p) *)
Definition master_feasible (M : master R xreal) (x p : list R) : Prop :=
  (forall i, (i < ms_ny M)%nat -> lin (ms_nx M) (ms_np M) (mget (ms_Ax M)) (mget (ms_Ap M)) x p i = at_ (ms_b M) i) /\
  (forall i, (i < ms_nz M)%nat -> c_val (value (ms_h M) x p (ms_c M)) i = 0) /\
  (forall i, (i < ms_np M)%nat -> c_val (value (ms_v M) x p (ms_c M)) i = 0) /\
  within (ms_xlower M) (ms_xupper M) x /\ within (ms_plower M) (ms_pupper M) p.

(** First-order optimality of a variable with value x, bounds lo, hi and derivative s of the
    Lagrange function *)
Definition stationary (s x : R) (lo hi : xreal) : Prop := s = 0 \/ (lo = XF x /\ s >= 0) \/ (hi = XF x /\ s <= 0).

(** KKT conditions of the user's problem: for constraints >= the multipliers are <= 0 and
    vanish when the constraint is not active *)
Definition user_kkt (P : problem R xreal) (x p ye yg ze zg : list R) : Prop :=
  let d := p_dims P in
  user_feasible P x p /\
  (forall j, (j < d_x d)%nat ->
    stationary (o_fx (ovalue (uf P) x p (p_c P)) j
      + sum (d_be d) (fun i => p_Aex P i j * at_ ye i) + sum (d_bg d) (fun i => p_Agx P i j * at_ yg i)
      + sum (d_he d) (fun i => c_ddx (value (uhe P) x p (p_c P)) i j * at_ ze i)
      + sum (d_hg d) (fun i => c_ddx (value (uhg P) x p (p_c P)) i j * at_ zg i))
      (at_ x j) (bd (p_xlower P) j) (bd (p_xupper P) j)) /\
  (forall i, (i < d_bg d)%nat -> at_ yg i <= 0 /\ (at_ yg i = 0 \/ lin (d_x d) (d_p d) (p_Agx P) (p_Agp P) x p i = at_ (p_bg P) i)) /\
  (forall i, (i < d_hg d)%nat -> at_ zg i <= 0 /\ (at_ zg i = 0 \/ c_val (value (uhg P) x p (p_c P)) i = 0)).

(** KKT conditions of a master problem *)
Definition master_kkt (M : master R xreal) (x p w : list R) : Prop :=
  master_feasible M x p /\
  (forall j, (j < ms_nx M)%nat ->
    stationary (o_fx (ovalue (ms_f M) x p (ms_c M)) j
      + sum (ms_ny M) (fun i => mget (ms_Ax M) i j * at_ w i)
      + sum (ms_nz M) (fun i => c_ddx (value (ms_h M) x p (ms_c M)) i j * at_ w (ms_ny M + i)))
      (at_ x j) (bd (ms_xlower M) j) (bd (ms_xupper M) j)).

(** The sizes of the vectors of a problem agree with its dimensions *)
Definition conforming (P : problem R xreal) : Prop :=
  let d := p_dims P in
  length (p_be P) = d_be d /\ length (p_bg P) = d_bg d /\ length (p_xlower P) = d_x d /\ length (p_xupper P) = d_x d.

(** The slacks that belong to (x, p) *)
Definition slacks (P : problem R xreal) (x p xbg xhg : list R) : Prop :=
  let d := p_dims P in
  (forall i, (i < d_bg d)%nat -> at_ xbg i = at_ (p_bg P) i - lin (d_x d) (d_p d) (p_Agx P) (p_Agp P) x p i) /\
  (forall i, (i < d_hg d)%nat -> at_ xhg i = - c_val (value (uhg P) x p (p_c P)) i).
