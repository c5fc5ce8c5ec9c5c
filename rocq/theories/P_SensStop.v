(** Property theorems C111: sensitivities and the limits of the calculation. *)
From Coq Require Import List PeanoNat Reals Lia.
From Coquelicot Require Import Coquelicot.
From mathcomp Require Import all_ssreflect all_algebra.
From Verif Require Import Num Num_facts Index_model Index_spec Num_rf R_rf Echelon_model Echelon_spec LU_model LU_spec Linear_model Linear_spec Canonical_model Canonical_spec.
From Verif Require Import ResErr_model Residual_model Residual_spec EchelonO_model EchelonO_spec P_Newton Loop_model Loop_spec Limits_proofs P_Limits Wrapper_model Wrapper_spec P_Wrapper.
From Verif Require Import End_model End_spec P_End P_EchelonO Status_spec SensW_model SensW_spec SensWEx_proofs P_SensW P_SensWEx.
Set Implicit Arguments.
Unset Strict Implicit.
Unset Printing Implicit Defensive.

(** the same run with the limit at one iteration less than it took: it ends at the same point *)
Lemma loop_stop (T : Type) (N : Num T) (W : Type) fupdate ferror newton phi check (B : bounds T) o fuel (s s' : state T W) :
  loop W fupdate ferror newton phi check fuel B o s = Some s' -> (s_iters s' <= o_maxiters o)%coq_nat ->
  exists t, loop W fupdate ferror newton phi check fuel B (Options (s_iters s' - 1)%coq_nat (o_tol o) (o_fix o)) s = Some t /\
    s_iters t = s_iters s' /\ s_u t = s_u s' /\ s_w t = s_w s'.
Proof.
elim: fuel s => [|fuel IH] s //; cbn [loop].
have FS k : step W fupdate ferror newton phi B (Options k (o_tol o) (o_fix o)) s = step W fupdate ferror newton phi B o s by exact: step_fix.
have I0 : s_iters (step W fupdate ferror newton phi B o s) = S (s_iters s) by exact: iters_step.
move: (FS) I0; set s0 := step W fupdate ferror newton phi B o s => FS' I0; rewrite FS'.
rewrite [stepping W check o s0]/stepping; cbn [s_iters]; case: (Nat.ltb_spec (o_maxiters o) (s_iters s0)) => L.
  by case=> <-; cbn [s_iters]; lia.
cbv zeta; case CV: (converged W check o _); cbn [negb].
  case=> <- _; cbn [s_iters s_u s_w]; rewrite /stepping; cbn [s_iters o_maxiters].
  case: (Nat.ltb_spec (s_iters s0 - 1)%coq_nat (s_iters s0)) => L2; last lia.
  by eexists; split; first reflexivity.
move=> H LE; have I1 := iters_loop _ _ _ _ _ _ _ _ _ _ _ H; cbn [s_iters] in I1.
have [t [Et It]] := IH _ H LE; exists t; split=> //.
rewrite /stepping; cbn [s_iters o_maxiters].
case: (Nat.ltb_spec (s_iters s' - 1)%coq_nat (s_iters s0)) => L2; first lia.
cbv zeta.
have -> : forall x, converged W check (Options (s_iters s' - 1)%coq_nat (o_tol o) (o_fix o)) x = converged W check o x by [].
by rewrite CV; cbn [negb].
Qed.

(** ** C111.  A limit that is not reached changes neither the State nor the sensitivities. *)
Theorem C111_maxiters : forall lu eps r0 s0 part E ech nonfinite newton phi check fuel o o' f1 f2 f3 oAx oAp obc (w : world E) hist m (P : problem R xreal) st r st' S,
  o_tol o' = o_tol o -> o_fix o' = o_fix o ->
  u_solve_sens lu eps r0 s0 part ech nonfinite newton phi check fuel o f1 f2 f3 oAx oAp obc w hist m P st = Some (r, st', S) ->
  r_succeeded r = true -> (r_iterations r <= o_maxiters o')%coq_nat ->
  u_solve_sens lu eps r0 s0 part ech nonfinite newton phi check fuel o' f1 f2 f3 oAx oAp obc w hist m P st = Some (r, st', S).
Proof.
move=> lu eps r0 s0 part E ech nonfinite newton phi check fuel o o' f1 f2 f3 oAx oAp obc w hist m P st r st' S TL F; rewrite /u_solve_sens.
case: update_master => [M|//]; case: ifP => // _; case RUN: m_solve => [[r1 s]|//] H OK L.
have E1 : r1 = r by move: H; case: (w_res _) => // rr; case: (finite _) => // x; case: (finite _) => // p; case: m_sens => // g [].
rewrite -E1 in OK L; rewrite /m_solve in RUN *.
by rewrite (@C104_maxiters_any _ _ _ _ _ _ _ _ _ o o' _ _ _ _ _ _ TL F RUN OK L).
Qed.
Print Assumptions C111_maxiters.

(** Nothing in the sensitivities tells whether the calculation succeeded: stopped by the limit in the iteration in which it would have
    succeeded, it returns the same State and the same sensitivities, with a Result that says it failed.  For every calculation that
    succeeds. *)
Theorem C111_unsuccessful_refuted : forall lu eps r0 s0 part E ech nonfinite newton phi check fuel o f1 f2 f3 oAx oAp obc (w : world E) hist m (P : problem R xreal) st r st' S,
  u_solve_sens lu eps r0 s0 part ech nonfinite newton phi check fuel o f1 f2 f3 oAx oAp obc w hist m P st = Some (r, st', S) -> r_succeeded r = true ->
  exists r', u_solve_sens lu eps r0 s0 part ech nonfinite newton phi check fuel (Options (r_iterations r - 1)%coq_nat (o_tol o) (o_fix o))
      f1 f2 f3 oAx oAp obc w hist m P st = Some (r', st', S) /\ r_succeeded r' = false /\ r_iterations r' = r_iterations r.
Proof.
move=> lu eps r0 s0 part E ech nonfinite newton phi check fuel o f1 f2 f3 oAx oAp obc w hist m P st r st' S; rewrite /u_solve_sens.
case: update_master => [M|//]; case: ifP => // _; rewrite /m_solve /solve.
case RUN: loop => [s|//] H OK.
have E1 : r = Result (Nat.leb (s_iters s) (o_maxiters o)) (s_iters s) nzero.
  by move: H; case: (w_res _) => // rr; case: (finite _) => // x; case: (finite _) => // p; case: m_sens => // g [].
rewrite E1 in OK *; move: OK; cbn [r_succeeded r_iterations] => OK; move/Nat.leb_le: OK => LE.
have GT := iters_loop _ _ _ _ _ _ _ _ _ _ _ RUN; cbn [initialize s_iters] in GT.
have [t [Et [It [Ut Wt]]]] := loop_stop RUN LE; rewrite Et Ut Wt It.
have FL : Nat.leb (s_iters s) (s_iters s - 1)%coq_nat = false by apply/Nat.leb_gt; lia.
exists (Result false (s_iters s) nzero); split=> //.
move: H; rewrite E1; cbn [o_maxiters]; rewrite FL.
case: (w_res _) => // rr; case: (finite _) => // x; case: (finite _) => // p; case: m_sens => // g [-> ->].
by [].
Qed.
Print Assumptions C111_unsuccessful_refuted.

(** The calculation of C86_case meets the hypotheses. *)
Example C111_case : exists lu srt lus M r st' S, run86 lu srt lus M P86 a86 = Some (r, st', S) /\ r_succeeded r = true.
Proof.
have [_ [_ [_ [_ [_ [lu [srt [lus [M [r [st' [S [_ [_ [_ [_ [_ [_ [RUN [OK _]]]]]]]]]]]]]]]]]]]] := C86_case.
by exists lu, srt, lus, M, r, st', S.
Qed.
