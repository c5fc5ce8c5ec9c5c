(** Model of the residual vector and of the error in binary64 (ResidualVector.cpp:96-123,
    Utils.cpp:561-579, ResidualErrors.cpp:60-107), for every order in which the sums can be
    evaluated (FSum_model.v).  Compared with Residual_model.v, which computes exactly: the
    partition of the variables and the matrices R, S are arguments here, not the results of
    Stability and Canonicalizer. *)
From Coq Require Import Reals List.
From Coq Require Import Floats.SpecFloat.
From Verif Require Import Num Index_model MatUtil_model ResErr_model Round_spec FSum_model.
Import ListNotations.
Local Open Scope R_scope.

(** ResidualVector.cpp:55-101: what ResidualVector::update reads.  Wx = [Ax; Jx] has ny + nz
    rows.  js are the stable variables, the first fnbs of them basic; ju the unstable ones. *)
Record fdata := FData {
  fnx : nat; fnp : nat; fny : nat; fnz : nat; fnbs : nat;
  fg : nat -> spec_float; fv : nat -> spec_float; fb : nat -> spec_float; fh : nat -> spec_float;
  fWx : nat -> nat -> spec_float; fWp : nat -> nat -> spec_float;
  fx : nat -> spec_float; fp : nat -> spec_float; fw : nat -> spec_float;
  fxl : nat -> spec_float; fxu : nat -> spec_float;
  fjs : list nat; fju : list nat;
  fR : nat -> nat -> spec_float;      (* Rbs: fnbs rows, fnw columns *)
  fS : nat -> nat -> spec_float;      (* Sbsns: fnbs rows, fnns columns *)
  fSp : nat -> nat -> spec_float      (* Sbsp: fnbs rows, fnp columns *)
}.
Definition fnw (d : fdata) : nat := (fny d + fnz d)%nat.
Definition fnns (d : fdata) : nat := (length (fjs d) - fnbs d)%nat.
Definition fjbs (d : fdata) : list nat := firstn (fnbs d) (fjs d).
Definition fjns (d : fdata) : list nat := skipn (fnbs d) (fjs d).

(** the exact product of two computed numbers *)
Definition prod (a b : spec_float) : xreal := nmul (xof a) (xof b).

(** ResidualVector.cpp:106-108 *)
Definition computed_ax (d : fdata) (ax : nat -> spec_float) : Prop :=
  forall i, (i < fnx d)%nat ->
  (In i (fju d) -> ax i = nzero) /\
  (~ In i (fju d) -> exists s,
     evalsum (xof (fg d i) :: map (fun l => prod (fWx d l i) (fw d l)) (seq 0 (fnw d))) s /\ ax i = nopp s).

(** ResidualVector.cpp:116 *)
Definition computed_ap (d : fdata) (ap : nat -> spec_float) : Prop :=
  forall k, (k < fnp d)%nat -> ap k = nopp (fv d k).

(** the terms of row l of awstar, ResidualVector.cpp:119-120 *)
Definition star_terms (d : fdata) (l : nat) : list xreal :=
  if Nat.ltb l (fny d)
  then xof (fb d l) :: map (fun j => nopp (prod (fWx d l j) (fx d j))) (fju d)
  else map (fun j => prod (fWx d l j) (fx d j)) (fjs d) ++ map (fun k => prod (fWp d l k) (fp d k)) (seq 0 (fnp d)) ++
       [nopp (xof (fh d (l - fny d)%nat))].
Definition computed_star (d : fdata) (a : nat -> spec_float) : Prop :=
  forall l, (l < fnw d)%nat -> evalsum (star_terms d l) (a l).

(** Utils.cpp:570-577: row i of Rbs*awstar is set to zero when below ref * eps *)
Definition clean (t ref : spec_float) : spec_float := if nltb (nabs t) (nmul ref neps) then nzero else t.
(** ResidualVector.cpp:122: [ref] are the reference values |R| |awstar| *)
Definition computed_Ra (d : fdata) (a ref c : nat -> spec_float) : Prop :=
  forall i, (i < fnbs d)%nat -> exists t,
  evalsum (map (fun l => prod (fR d i l) (a l)) (seq 0 (fnw d))) t /\
  evalsum (map (fun l => prod (nabs (fR d i l)) (nabs (a l))) (seq 0 (fnw d))) (ref i) /\
  c i = clean t (ref i).

(** ResidualVector.cpp:123 *)
Definition sub_terms (d : fdata) (i : nat) : list xreal :=
  xof (fx d (nth i (fjbs d) 0%nat)) ::
  map (fun j => prod (fS d i j) (fx d (nth j (fjns d) 0%nat))) (seq 0 (fnns d)) ++
  map (fun k => prod (fSp d i k) (fp d k)) (seq 0 (fnp d)).
Definition computed_awbs (d : fdata) (c r : nat -> spec_float) : Prop :=
  forall i, (i < fnbs d)%nat -> evalsum (xof (c i) :: map nopp (sub_terms d i)) (r i).

(** ResidualVector::update: ax, ap, awstar, the reference values, the cleaned product, awbs *)
Record fresidual := FResidual { ra_x : nat -> spec_float; ra_p : nat -> spec_float; ra_star : nat -> spec_float;
                                ra_ref : nat -> spec_float; ra_c : nat -> spec_float; ra_wbs : nat -> spec_float }.
Definition computed (d : fdata) (r : fresidual) : Prop :=
  computed_ax d (ra_x r) /\ computed_ap d (ra_p r) /\ computed_star d (ra_star r) /\
  computed_Ra d (ra_star r) (ra_ref r) (ra_c r) /\ computed_awbs d (ra_c r) (ra_wbs r).

(** ResidualErrors.cpp:60-107 *)
Definition computed_error (d : fdata) (r : fresidual) : spec_float :=
  err_update (fnx d) (fnp d) (fnw d) (fnbs d) (ra_x r) (ra_p r) (ra_wbs r) (fx d) (fxl d) (fxu d) (fju d) (fjbs d).

(** One of the possible evaluations: every sum from left to right (Eigen's order without
    vectorization). *)
Definition lsum (l : list spec_float) : spec_float := fold_left nadd l nzero.
Definition ltr_star (d : fdata) (l : nat) : spec_float :=
  if Nat.ltb l (fny d)
  then lsum (fb d l :: map (fun j => nopp (nmul (fWx d l j) (fx d j))) (fju d))
  else lsum (map (fun j => nmul (fWx d l j) (fx d j)) (fjs d) ++ map (fun k => nmul (fWp d l k) (fp d k)) (seq 0 (fnp d)) ++
             [nopp (fh d (l - fny d)%nat)]).
Definition ltr_ref (d : fdata) (i : nat) : spec_float :=
  lsum (map (fun l => nmul (nabs (fR d i l)) (nabs (ltr_star d l))) (seq 0 (fnw d))).
Definition ltr_c (d : fdata) (i : nat) : spec_float :=
  clean (lsum (map (fun l => nmul (fR d i l) (ltr_star d l)) (seq 0 (fnw d)))) (ltr_ref d i).
Definition ltr (d : fdata) : fresidual := FResidual
  (fun i => if contains i (fju d) then nzero
            else nopp (lsum (fg d i :: map (fun l => nmul (fWx d l i) (fw d l)) (seq 0 (fnw d)))))
  (fun k => nopp (fv d k)) (ltr_star d) (ltr_ref d) (ltr_c d)
  (fun i => lsum (ltr_c d i :: nopp (fx d (nth i (fjbs d) 0%nat)) ::
                  map (fun j => nopp (nmul (fS d i j) (fx d (nth j (fjns d) 0%nat)))) (seq 0 (fnns d)) ++
                  map (fun k => nopp (nmul (fSp d i k) (fp d k))) (seq 0 (fnp d)))).
