(** The whole Result that Solver::solve returns (Optima/MasterSolver.cpp, Optima/Result.hpp). *)
From Coq Require Import List.
From Verif Require Import Num Loop_model Result_model.

Section Returned.
Context {T : Type} {N : Num T} {Str : Type} (empty : Str).

(** Result.hpp:32-90: the initial values of the members *)
Definition fresh_result : fullresult T Str :=
  FullResult false empty 0 nzero nzero nzero 0 0 0 0 0 nzero nzero nzero nzero nzero nzero nzero nzero nzero.

(** MasterSolver.cpp:144 (result = {}), 176 (iterations) and 186 (succeeded) are the only
    assignments to the result; MasterSolver.cpp:121 and Solver.cpp:353 return it *)
Definition returned (r : result T) : fullresult T Str :=
  FullResult (r_succeeded r) (f_reason fresh_result) (r_iterations r) (f_error fresh_result) (f_error_optimality fresh_result)
    (f_error_feasibility fresh_result) (f_evals fresh_result) (f_evals_f fresh_result) (f_evals_fx fresh_result)
    (f_evals_fxx fresh_result) (f_evals_fxp fresh_result) (f_time fresh_result) (f_time_obj fresh_result) (f_time_f fresh_result)
    (f_time_fx fresh_result) (f_time_fxx fresh_result) (f_time_fxp fresh_result) (f_time_con fresh_result) (f_time_lin fresh_result)
    (f_time_sens fresh_result).
End Returned.
