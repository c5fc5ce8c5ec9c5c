(** Proofs for C92_equality_partial. *)
From Coq Require Import List Arith Bool Reals Lra Lia.
From Verif Require Import Num Wrapper_model Wrapper_spec Wrapper_proofs Convex_spec Convex_proofs Quadratic_spec.
Local Open Scope R_scope.

Lemma classic_zero n (v : nat -> R) : (forall j, (j < n)%nat -> v j = 0) \/ exists2 j, (j < n)%nat & v j <> 0.
Proof.
  induction n as [|n IH]; [left; intros j Hj; lia|].
  destruct IH as [IH|[j Hj NZ]]; [|right; exists j; [lia|exact NZ]].
  destruct (Req_dec (v n) 0) as [E|E]; [|right; exists n; [lia|exact E]].
  left. intros j Hj. destruct (Nat.eq_dec j n) as [->|]; [exact E|apply IH; lia].
Qed.

Section Min.
Variables (P : problem R xreal) (H : nat -> nat -> R) (c : nat -> R).
Let d := p_dims P.
Let n := d_x d.
Hypothesis Q : quadratic P H c.
Hypothesis EO : equalities_only P.
Hypothesis PD : positive_along P H.

Lemma form_shift (x v : nat -> R) : form n H (fun i => x i + v i) = form n H x + 2 * sum n (fun i => v i * sum n (fun j => H i j * x j)) + form n H v.
Proof.
  unfold form.
  assert (S : sum n (fun i => sum n (fun j => x i * H i j * v j)) = sum n (fun i => v i * sum n (fun j => H i j * x j))).
  { rewrite sum_swap. apply sum_ext; intros i Hi. rewrite <- sum_scal. apply sum_ext; intros j Hj. rewrite (proj1 Q i j). ring. }
  assert (T : sum n (fun i => sum n (fun j => v i * H i j * x j)) = sum n (fun i => v i * sum n (fun j => H i j * x j))).
  { apply sum_ext; intros i Hi. rewrite <- sum_scal. apply sum_ext; intros j Hj. ring. }
  replace (2 * sum n (fun i => v i * sum n (fun j => H i j * x j)))
    with (sum n (fun i => sum n (fun j => x i * H i j * v j)) + sum n (fun i => sum n (fun j => v i * H i j * x j))) by (rewrite S, T; ring).
  rewrite <- !sum_plus. apply sum_ext; intros i Hi. rewrite <- !sum_plus. apply sum_ext; intros j Hj. ring.
Qed.

Lemma in_bounds x : length x = n -> within (p_xlower P) (p_xupper P) x.
Proof. intros L i Hi. destruct EO as (_ & _ & _ & _ & B & _). rewrite L in Hi. destruct (B i Hi) as [-> ->]. split; reflexivity. Qed.

(** a point with multipliers is the only minimiser *)
Lemma only_minimum x y : length x = n ->
  (forall i, (i < d_be d)%nat -> sum n (fun j => p_Aex P i j * at_ x j) = at_ (p_be P) i) ->
  (forall j, (j < n)%nat -> sum n (fun k => H j k * at_ x k) + c j + sum (d_be d) (fun i => p_Aex P i j * at_ y i) = 0) ->
  minimises P nil x /\ forall z, length z = n -> minimises P nil z -> z = x.
Proof.
  intros L F S. destruct EO as (E1 & E2 & E3 & E4 & _). fold d in E1, E2, E3, E4.
  assert (FE : forall z, length z = n -> (feasible_for P nil z <-> forall i, (i < d_be d)%nat -> sum n (fun j => p_Aex P i j * at_ z j) = at_ (p_be P) i)).
  { intros z Lz. unfold feasible_for. fold d. unfold lin. rewrite E1, E2, E3, E4. split.
    - intros [A _] i Hi. specialize (A i Hi). cbn [sum] in A. rewrite Rplus_0_r in A. exact A.
    - intros A. repeat match goal with |- _ /\ _ => split end; try (intros i Hi; exfalso; lia); [|apply in_bounds; exact Lz].
      intros i Hi. cbn [sum]. rewrite Rplus_0_r. apply A; exact Hi. }
  assert (D : forall z, length z = n -> (forall i, (i < d_be d)%nat -> sum n (fun j => p_Aex P i j * at_ z j) = at_ (p_be P) i) ->
    objective P z nil = objective P x nil + form n H (fun j => at_ z j - at_ x j) / 2 /\
    forall i, (i < d_be d)%nat -> sum n (fun j => p_Aex P i j * (at_ z j - at_ x j)) = 0).
  { intros z Lz Fz.
    assert (G : forall i, (i < d_be d)%nat -> sum n (fun j => p_Aex P i j * (at_ z j - at_ x j)) = 0).
    { intros i Hi. replace (sum n _) with (sum n (fun j => p_Aex P i j * at_ z j) + - sum n (fun j => p_Aex P i j * at_ x j)).
      - rewrite (F i Hi), (Fz i Hi). ring.
      - rewrite <- sum_opp, <- sum_plus. apply sum_ext; intros j Hj. ring. }
    split; [|exact G]. unfold objective. destruct Q as [_ QQ]. fold d in QQ. fold n in QQ.
    rewrite (proj1 (QQ z Lz)), (proj1 (QQ x L)).
    set (v := fun j => at_ z j - at_ x j) in *.
    replace (form n H (at_ z)) with (form n H (fun i => at_ x i + v i))
      by (unfold form; apply sum_ext; intros i Hi; apply sum_ext; intros j Hj; unfold v; ring).
    rewrite form_shift.
    replace (sum n (fun j => c j * at_ z j)) with (sum n (fun j => c j * at_ x j) + sum n (fun j => c j * v j))
      by (rewrite <- sum_plus; apply sum_ext; intros j Hj; unfold v; ring).
    assert (Z : sum n (fun i => v i * sum n (fun j => H i j * at_ x j)) + sum n (fun j => c j * v j) = 0).
    { rewrite <- sum_plus. transitivity (- sum n (fun j => sum (d_be d) (fun i => p_Aex P i j * v j * at_ y i))).
      - rewrite <- sum_opp. apply sum_ext; intros j Hj. specialize (S j Hj).
        replace (sum (d_be d) (fun i => p_Aex P i j * v j * at_ y i)) with (v j * sum (d_be d) (fun i => p_Aex P i j * at_ y i))
          by (rewrite <- sum_scal; apply sum_ext; intros i Hi; ring).
        set (A := sum n _) in *. set (B := sum (d_be d) _) in *. replace A with (- c j - B) by lra. ring.
      - rewrite sum_swap. rewrite sum_zero; [ring|]. intros i Hi.
        transitivity (at_ y i * sum n (fun j => p_Aex P i j * v j)).
        + rewrite <- sum_scal. apply sum_ext; intros j Hj. ring.
        + rewrite (G i Hi : sum n (fun j => p_Aex P i j * v j) = 0). ring. }
    lra. }
  assert (NN : forall v, (forall i, (i < d_be d)%nat -> sum n (fun j => p_Aex P i j * v j) = 0) -> 0 <= form n H v /\ (form n H v = 0 -> forall j, (j < n)%nat -> v j = 0)).
  { intros v Gv.
    destruct (classic_zero n v) as [Zv|NZ].
    - split; [|intros _; exact Zv]. unfold form. rewrite sum_zero; [lra|]. intros i Hi. apply sum_zero. intros j Hj. rewrite (Zv i Hi). ring.
    - pose proof (PD v Gv NZ) as PP. fold d in PP. fold n in PP. split; [lra|intros E; exfalso; lra]. }
  assert (FX : feasible_for P nil x) by (apply (FE x L); exact F).
  split.
  - split; [exact FX|]. intros z Lz Fz. pose proof (proj1 (FE z Lz) Fz) as Fz2. destruct (D z Lz Fz2) as [-> Gz]. pose proof (proj1 (NN _ Gz)). lra.
  - intros z Lz [Fz Mz]. specialize (Mz x L FX). pose proof (proj1 (FE z Lz) Fz) as Fz2. destruct (D z Lz Fz2) as [EZ Gz]. pose proof (NN _ Gz) as [N1 N2].
    assert (N3 : forall j, (j < n)%nat -> at_ z j - at_ x j = 0) by (apply N2; lra).
    apply (nth_ext z x 0 0); [congruence|]. intros j Hj. specialize (N3 j ltac:(lia)). unfold at_ in N3. lra.
Qed.
End Min.
