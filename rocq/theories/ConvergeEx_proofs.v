(** A problem for C87: min x1 + x0^2/2 subject to x1 = x0^2, with its solution at the origin. *)
From Coq Require Import List Arith Bool Reals Lra Lia.
From Coquelicot Require Import Coquelicot.
From Verif Require Import Num Wrapper_model Wrapper_spec Wrapper_proofs P_Wrapper Status_spec End_spec Converge_spec.
Import ListNotations.
Local Open Scope R_scope.

Definition f87 : ofun R := fun x p c r =>
  ORes (at_ x 1 + at_ x 0 * at_ x 0 / 2) (fun j => if j =? 0 then at_ x 0 else 1)
    (fun i j => if (i =? 0) && (j =? 0) then 1 else 0) (o_fxp r) (o_fxc r) true false true.
Definition he87 : cfun R := fun x p c r =>
  CRes (fun _ => at_ x 1 - at_ x 0 * at_ x 0) (fun _ j => if j =? 0 then - 2 * at_ x 0 else 1) (c_ddp r) (c_ddc r) false true.
Definition P87 : problem R xreal := Problem (Dims 2 0 0 0 1 0 0) None (Some f87) (Some he87) (Some cfn0) (Some cfn0)
  mzeros mzeros mzeros mzeros [] [] [XNInf; XNInf] [XPInf; XPInf] [] [] [] mzeros mzeros.

Lemma licq87 x : length x = 2%nat -> licq P87 x [] [] [].
Proof.
  intros L a b c e _ _ H. split; [|split; [|split]]; intros i Hi; cbn in Hi; try lia.
  assert (i = 0%nat) as -> by lia. specialize (H 1%nat). cbn in H. rewrite <- H; [lra|lia|].
  unfold at_bound, bd, at_. cbn. intros [E|E]; discriminate.
Qed.
Lemma derivatives87 : correct_derivatives P87.
Proof.
  intros x p Lx Lp j Hj. cbn [P87 p_dims d_x d_p d_he d_hg] in *.
  destruct x as [|u [|v [|]]]; try discriminate Lx. destruct p; [|discriminate Lp].
  unfold ovalue, ocall, uf, oget, value, ccall, uhe, uhg, cget. cbn [P87 p_f p_he p_hg p_c].
  repeat match goal with |- _ /\ _ => split end; try (intros i Hi; exfalso; lia).
  - destruct j as [|[|j]]; [| |lia]; unfold f87, set_at, at_; cbn; auto_derive; try exact I; lra.
  - intros i Hi. destruct j as [|[|j]]; [| |lia]; destruct i as [|[|i]]; try lia; unfold f87, set_at, at_; cbn; auto_derive; try exact I; lra.
  - intros i Hi. assert (i = 0%nat) as -> by lia. destruct j as [|[|j]]; [| |lia]; unfold he87, set_at, at_; cbn; auto_derive; try exact I; lra.
Qed.
(** the only minimum, with quadratic growth *)
Lemma minimum87 x : c_val (value (uhe P87) x [] []) 0 = 0 ->
  o_f (ovalue (uf P87) x [] []) = o_f (ovalue (uf P87) [0; 0] [] []) + 3 / 2 * (at_ x 0 * at_ x 0).
Proof.
  unfold ovalue, ocall, f87, uf, oget, value, ccall, he87, P87, uhe. cbn [p_f p_he cget c_val o_f]. unfold f87, he87. cbn [c_val o_f].
  assert (E : at_ [0; 0] 0 = 0 /\ at_ [0; 0] 1 = 0) by (split; reflexivity).
  destruct E as (-> & ->). intros H. lra.
Qed.
Lemma kkt87 : user_kkt P87 [0; 0] [] [] [] [-1] [].
Proof.
  unfold user_kkt, user_feasible. cbn [P87 p_dims d_x d_p d_be d_bg d_he d_hg].
  repeat match goal with |- _ /\ _ => split end; intros i Hi; try (cbn in Hi; exfalso; lia).
  - assert (i = 0%nat) as -> by lia. unfold at_. cbn. lra.
  - unfold at_, bd. cbn. cbn in Hi. destruct i as [|[|i]]; [| |lia]; (split; reflexivity).
  - unfold at_, bd. destruct i as [|[|i]]; [| |lia]; cbn; left; unfold at_; cbn; lra.
Qed.
