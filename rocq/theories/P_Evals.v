(** Property theorems C88: how often the user's functions are evaluated.  Any number system,
    any user functions, linear solver, transformation and convergence check. *)
From Coq Require Import List Arith Bool Lia Reals Floats.SpecFloat.
From Verif Require Import Num Num_facts Minimize_model Loop_model Loop_spec Loop_proofs Result_model Wrapper_model Evals_model Evals_spec P_Loop.
Import ListNotations.

Section Counting.
Context {T : Type} {N : Num T} {W : Type}.
Variables (fupdate : W -> uvec T -> W) (ferror : W -> uvec T -> T) (newton : W -> W * uvec T).
Variables (phi : option (W -> list T -> list T -> W * bool * list T)) (check : option (W -> uvec T -> uvec T -> T -> nat -> bool)).
Let step := Loop_model.step W fupdate ferror newton phi.
Let loop := Loop_model.loop W fupdate ferror newton phi check.

(** how many evaluations one call of the transformation step makes *)
Lemma transform_count ph B s : phi = Some ph -> length (s_evals s) + 1 <= length (s_evals (fst (transform W fupdate ferror phi B s))) <= length (s_evals s) + 2.
Proof.
  intros P. unfold transform. rewrite P. destruct (ph (s_w s) (ux (s_uo s)) (ux (s_u s))) as [[w ok] x].
  destruct ok; cbn [negb].
  - destruct (ngtb _ _); cbn; lia.
  - cbn. lia.
Qed.
Lemma step_count ph B o s : phi = Some ph -> length (s_evals s) + 2 <= length (s_evals (step B o s)) <= length (s_evals s) + 3.
Proof.
  intros P. unfold step, Loop_model.step. set (s0 := State _ _ _ _ _ _ _ _).
  pose proof (newton_frame W newton s0) as F. cbn zeta in F. destruct F as (_ & _ & _ & _ & F & _).
  set (s1 := newton_apply W newton s0) in *.
  pose proof (transform_count ph B s1 P) as C. destruct (transform W fupdate ferror phi B s1) as [s2 k]. cbn [fst] in C.
  rewrite F in C. cbn [s_evals s0] in C. cbn [s_evals update with_u length] in *. lia.
Qed.
Lemma loop_count ph fuel B o s s' : phi = Some ph -> loop fuel B o s = Some s' -> s_iters s <= s_iters s' /\
  length (s_evals s) + 2 * (s_iters s' - s_iters s) <= length (s_evals s') <= length (s_evals s) + 3 * (s_iters s' - s_iters s).
Proof.
  intros P. revert s. induction fuel as [|fuel IH]; intros s; [discriminate|]. unfold loop. cbn [Loop_model.loop].
  pose proof (step_frame W fupdate ferror newton phi B o s) as F. cbn zeta in F. destruct F as (_ & F2 & _).
  pose proof (step_count ph B o s P) as C. unfold step in C. set (s1 := Loop_model.step W fupdate ferror newton phi B o s) in *.
  pose proof (stepping_frame W check o s1) as G. destruct (stepping W check o s1) as [s2 c]. destruct G as (_ & _ & _ & G4 & _ & G6 & _).
  destruct c; intros E; [apply IH in E|injection E as <-]; rewrite ?G4, ?G6, ?F2 in *; lia.
Qed.
Lemma loop_same fuel B o s s' : phi = None -> loop fuel B o s = Some s' -> s_evals s = s_iterates s -> s_evals s' = s_iterates s'.
Proof.
  intros P. revert s. induction fuel as [|fuel IH]; intros s; [discriminate|]. unfold loop. cbn [Loop_model.loop]. intros E H.
  pose proof (step_evals W fupdate ferror newton phi B o s P) as SE.
  assert (SI : s_iterates (step B o s) = s_u (step B o s) :: s_iterates s).
  { pose proof (step_frame W fupdate ferror newton phi B o s) as F. cbn zeta in F. unfold step. tauto. }
  unfold step in SI. set (s1 := Loop_model.step W fupdate ferror newton phi B o s) in *.
  pose proof (stepping_frame W check o s1) as G. destruct (stepping W check o s1) as [s2 c].
  assert (s_evals s2 = s_iterates s2).
  { destruct G as (_ & _ & _ & _ & _ & G6 & G7 & _). rewrite G6, G7, SE, SI, H. reflexivity. }
  destruct c; [eapply IH; eauto|]. injection E as <-. assumption.
Qed.
End Counting.

Lemma calls_each {T} (d : dims) (us : list (uvec T)) :
  calls_of d Call_r us = length us /\ calls_of d Call_f us = length us /\
  calls_of d Call_he us = (if d_he d + d_hg d =? 0 then 0 else length us) /\
  calls_of d Call_hg us = (if d_he d + d_hg d =? 0 then 0 else length us) /\
  calls_of d Call_v us = (if d_p d =? 0 then 0 else length us).
Proof.
  induction us as [|u us IH]; [cbn; repeat split; destruct (_ =? _); reflexivity|].
  unfold calls_of in *. cbn [flat_map]. rewrite !filter_app, !app_length.
  destruct IH as (I1 & I2 & I3 & I4 & I5). rewrite I1, I2, I3, I4, I5. unfold user_calls, nz. cbn [length].
  destruct (Nat.eq_dec (d_he d + d_hg d) 0) as [E|E], (Nat.eq_dec (d_p d) 0) as [E'|E'];
    rewrite ?E, ?E'; try (rewrite (proj2 (Nat.eqb_neq _ _) E)); try (rewrite (proj2 (Nat.eqb_neq _ _) E'));
    try (rewrite (proj2 (Nat.ltb_lt 0 (d_he d + d_hg d)) ltac:(lia))); try (rewrite (proj2 (Nat.ltb_lt 0 (d_p d)) ltac:(lia)));
    cbn; repeat split; reflexivity.
Qed.

(** ** C88.  Without a transformation the functions are evaluated at the starting point (moved
    into the bounds) and at every iterate, and nowhere else: once more than there are iterations. *)
Theorem C88_evaluations : forall (T : Type) (N : Num T) (W : Type) fupdate ferror newton check B o fuel (w : W) hist u r s (d : dims),
  solve W fupdate ferror newton None check fuel B o w hist u = Some (r, s) ->
  s_evals s = s_iterates s /\ length (s_evals s) = r_iterations r + 1 /\
  calls_of d Call_f (s_evals s) = r_iterations r + 1 /\ calls_of d Call_r (s_evals s) = r_iterations r + 1 /\
  calls_of d Call_he (s_evals s) = (if d_he d + d_hg d =? 0 then 0 else r_iterations r + 1) /\
  calls_of d Call_hg (s_evals s) = (if d_he d + d_hg d =? 0 then 0 else r_iterations r + 1) /\
  calls_of d Call_v (s_evals s) = (if d_p d =? 0 then 0 else r_iterations r + 1).
Proof.
  intros T N W fupdate ferror newton check B o fuel w hist u r s d. unfold solve.
  destruct (loop _ _ _ _ _ _ _ _ _ _) as [s'|] eqn:E; [|discriminate]. intros H. injection H as <- <-. cbn [r_iterations].
  assert (L : length (s_evals s') = s_iters s' + 1).
  { rewrite (loop_same fupdate ferror newton None check _ _ _ _ _ eq_refl E eq_refl).
    apply loop_final in E; [|cbn; lia|reflexivity|discriminate].
    destruct E as (I & _ & _ & older & errs & -> & L & _). cbn [length]. rewrite L. cbn in *. lia. }
  destruct (calls_each d (s_evals s')) as (-> & -> & -> & -> & ->). rewrite L.
  split; [exact (loop_same fupdate ferror newton None check _ _ _ _ _ eq_refl E eq_refl)|]. repeat split.
Qed.
Print Assumptions C88_evaluations.

(** With a transformation there are between two and three evaluations in every iteration. *)
Theorem C88_transformed : forall (T : Type) (N : Num T) (W : Type) fupdate ferror newton ph check B o fuel (w : W) hist u r s,
  solve W fupdate ferror newton (Some ph) check fuel B o w hist u = Some (r, s) ->
  2 * r_iterations r + 1 <= length (s_evals s) <= 3 * r_iterations r + 1.
Proof.
  intros T N W fupdate ferror newton ph check B o fuel w hist u r s. unfold solve.
  destruct (loop _ _ _ _ _ _ _ _ _ _) as [s'|] eqn:E; [|discriminate]. intros H. injection H as <- <-. cbn [r_iterations].
  apply (loop_count fupdate ferror newton (Some ph) check ph _ _ _ _ _ eq_refl) in E. cbn in E. lia.
Qed.
Print Assumptions C88_transformed.

(** Both ends are reached: a transformation that declines, and one that makes the error larger. *)
Definition worse := Some (fun (w : list spec_float) (xo x : list spec_float) => (w, true, x)).
Example C88_case :
  (exists r s, toy_solve (nofZ 10) None 5 [nofZ 3; nofZ 2; nofZ 2; nofZ 0] [] = Some (r, s) /\ r_iterations r = 3 /\ length (s_evals s) = 4) /\
  (exists r s, toy_solve (nofZ 10) reject 5 [nofZ 3; nofZ 2; nofZ 0] [] = Some (r, s) /\ r_iterations r = 1 /\ length (s_evals s) = 3) /\
  (exists r s, toy_solve (nofZ 10) worse 5 [nofZ 3; nofZ 5; nofZ 3; nofZ 0] [] = Some (r, s) /\ r_iterations r = 1 /\ length (s_evals s) = 4).
Proof. repeat split; eexists; eexists; (split; [vm_compute; reflexivity|]); split; reflexivity. Qed.

(** The Result tells the iterations, but not the calls: its counters and times are 0 after every calculation, although
    the objective function has been evaluated twice or more. *)
Theorem C88_counters_refuted : forall (T : Type) (N : Num T) (Str : Type) (empty : Str) (W : Type) fupdate ferror newton phi check B o fuel (w : W) hist u r s (d : dims),
  solve W fupdate ferror newton phi check fuel B o w hist u = Some (r, s) ->
  let full := returned empty r in
  f_succeeded full = r_succeeded r /\ f_iterations full = r_iterations r /\ 2 <= calls_of d Call_f (s_evals s) /\
  f_evals full = 0 /\ f_evals_f full = 0 /\ f_evals_fx full = 0 /\ f_evals_fxx full = 0 /\ f_evals_fxp full = 0 /\
  f_time full = nzero /\ f_time_obj full = nzero /\ f_time_con full = nzero /\ f_time_lin full = nzero /\ f_time_sens full = nzero.
Proof.
  intros T N Str empty W fupdate ferror newton phi check B o fuel w hist u r s d H full. split; [reflexivity|]. split; [reflexivity|]. split; [|repeat split].
  destruct (calls_each d (s_evals s)) as (_ & -> & _).
  assert (I : 1 <= r_iterations r).
  { revert H. unfold solve. destruct (loop _ _ _ _ _ _ _ _ _ _) as [s'|] eqn:E; [|discriminate]. intros H. injection H as <- _.
    apply loop_final in E; [|cbn; lia|reflexivity|discriminate]. cbn in E. cbn. lia. }
  destruct phi as [ph|]; [apply C88_transformed in H; lia|].
  apply (C88_evaluations _ _ _ _ _ _ _ _ _ _ _ _ _ _ _ d) in H. lia.
Qed.
Print Assumptions C88_counters_refuted.
