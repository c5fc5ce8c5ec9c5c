(** Model of Optima/Result.hpp and Optima/Result.cpp. *)
From Coq Require Import List.
From Verif Require Import Num.

Section Result.
Context {T : Type} {N : Num T} {Str : Type}.

(** Result.hpp:32-90 *)
Record fullresult := FullResult {
  f_succeeded : bool; f_reason : Str; f_iterations : nat;
  f_error : T; f_error_optimality : T; f_error_feasibility : T;
  f_evals : nat; f_evals_f : nat; f_evals_fx : nat; f_evals_fxx : nat; f_evals_fxp : nat;
  f_time : T; f_time_obj : T; f_time_f : T; f_time_fx : T; f_time_fxx : T; f_time_fxp : T;
  f_time_con : T; f_time_lin : T; f_time_sens : T }.

(** Result.cpp:22-34 operator+=.  (Counters of 64 bits are not modelled as wrapping.) *)
Definition result_add (a b : fullresult) : fullresult :=
  {| f_succeeded := f_succeeded b; f_reason := f_reason a; f_iterations := f_iterations a + f_iterations b;
     f_error := f_error b; f_error_optimality := f_error_optimality a; f_error_feasibility := f_error_feasibility a;
     f_evals := f_evals a + f_evals b;
     f_evals_f := f_evals_f a; f_evals_fx := f_evals_fx a; f_evals_fxx := f_evals_fxx a; f_evals_fxp := f_evals_fxp a;
     f_time := nadd (f_time a) (f_time b); f_time_obj := nadd (f_time_obj a) (f_time_obj b);
     f_time_f := f_time_f a; f_time_fx := f_time_fx a; f_time_fxx := f_time_fxx a; f_time_fxp := f_time_fxp a;
     f_time_con := nadd (f_time_con a) (f_time_con b); f_time_lin := nadd (f_time_lin a) (f_time_lin b);
     f_time_sens := f_time_sens a |}.
End Result.
Arguments fullresult : clear implicits.
