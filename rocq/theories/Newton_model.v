(** Model of Optima/NewtonStep.cpp with Optima/LinearSolver.cpp: the Newton direction that
    Loop_model.v and End_model.v leave as a parameter.  Exact arithmetic. *)
From Coq Require Import List Reals.
From mathcomp Require Import all_ssreflect all_fingroup all_algebra.
From Verif Require Import Num Index_model Num_rf R_rf LU_model Linear_model Canonical_model ResErr_model Residual_model.
From Verif Require Import Loop_model Wrapper_model End_model.
Set Implicit Arguments.
Unset Strict Implicit.
Unset Printing Implicit Defensive.
Local Open Scope ring_scope.

(** LinearSolverOptions.hpp:25-60 *)
Inductive lsmethod := Fullspace | Nullspace | Rangespace.

Section NewtonStep.
Variable F : realFieldType.
(** LU::decompose (LU.cpp): the factors of a matrix; Eigen's full pivoting is external *)
Variable lu : forall n, 'M[F]_n -> lufac F n.
Variables (eps : F) (meth : lsmethod) (np : nat).

(** ResidualVector.cpp:109-110, 116-123, 131-136: the canonical residual vector *)
Definition newton_rhs (r : residual F) : cvec F (knbe (rc r) + knbi (rc r)) (knne (rc r) + knni (rc r)) np :=
  CVec (\col_i rax r (ix (kjs (rc r)) i)) (\col_i rap r i) (\col_i rawbs r i).

(** LinearSolver.cpp:48-66 decompose and solveCanonical *)
Definition solve_canonical nbe nbi nne nni (J : cmat F (nbe + nbi) (nne + nni) np) (a : cvec F (nbe + nbi) (nne + nni) np) :=
  match meth with
  | Fullspace => fullspace eps (lu (full_matrix J)) a
  | Nullspace => nullspace eps (lu (nM (null_decompose J))) J a
  | Rangespace => rangespace eps (lu (range_matrix J)) J a
  end.

(** NewtonStep.cpp:54-62 with LinearSolver.cpp:96-129; [u0] is what du holds before *)
Definition newton_dir (r : residual F) (u0 : rawvec F) : option (mvec F) :=
  omap (master_result (MVec (rax r) (rap r) (fun _ => 0)) u0)
    (solve_canonical (canon_cmat np (rM r) (rc r)) (newton_rhs r)).
End NewtonStep.

Section NewtonWorld.
Variables (M : master R xreal) (E : Type).
Variable lu : forall n, 'M[RF]_n -> lufac RF n.
Variables (eps : RF) (meth : lsmethod).
(** what happens when there is no residual or the linear solver fails *)
Variable failed : world E -> world E * uvec xreal.

(** NewtonStep.cpp:54-65, the part before u = uo + du *)
Definition w_newton (w : world E) : world E * uvec xreal :=
  match w_res w with
  | None => failed w
  | Some r =>
      match newton_dir lu eps meth (ms_np M) r (fun _ => 0) with
      | None => failed w
      | Some du => (w, UVec (List.map XF (vlist (ms_nx M) (mx du))) (List.map XF (vlist (ms_np M) (mp du)))
                            (List.map XF (vlist (ms_ny M + ms_nz M) (mw du))))
      end
  end.
End NewtonWorld.
