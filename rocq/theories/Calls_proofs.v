(** The functions of the master problem depend only on what the user's functions deliver. *)
From Coq Require Import List Arith Bool Reals Lia FunctionalExtensionality.
From Verif Require Import Num Wrapper_model Wrapper_spec Calls_model Calls_spec.

Ltac bcase := repeat match goal with
  | |- context [if ?b then _ else _] => let E := fresh "E" in destruct b eqn:E
  end.
Ltac bfacts := repeat match goal with
  | H : (_ && _)%bool = true |- _ => apply andb_prop in H; destruct H
  | H : Nat.leb _ _ = true |- _ => apply Nat.leb_le in H
  | H : Nat.ltb _ _ = true |- _ => apply Nat.ltb_lt in H
  end.

Section Agree.
Variables (d : dims) (nc : nat) (o : evopts) (xbar p c : list R).

Section Objective.
Variables (g f : ofun R) (res : ores R).
Hypothesis D : delivers_f (d_x d) (d_p d) nc o g f.
Let a := master_f d g xbar p c res. Let b := master_f d f xbar p c res.
Lemma agree_fx : o_fx a = o_fx b.
Proof.
  apply functional_extensionality. intros i. unfold a, b, master_f, ocall. cbn [o_fx]. bcase; bfacts; [|reflexivity].
  apply (D (head (d_x d) xbar) p c). assumption.
Qed.
Lemma agree_fxx : e_ddx o = true -> o_fxx a = o_fxx b.
Proof.
  intros H. apply functional_extensionality. intros i. apply functional_extensionality. intros j.
  unfold a, b, master_f, ocall. cbn [o_fxx]. bcase; bfacts; [|reflexivity].
  apply (D (head (d_x d) xbar) p c); assumption.
Qed.
Lemma agree_fxp : e_ddp o = true \/ d_p d = 0%nat -> o_fxp a = o_fxp b.
Proof.
  intros H. apply functional_extensionality. intros i. apply functional_extensionality. intros j.
  unfold a, b, master_f, ocall. cbn [o_fxp]. bcase; bfacts; [|reflexivity].
  apply (D (head (d_x d) xbar) p c); assumption.
Qed.
Lemma agree_fxc : e_ddc o = true \/ nc = 0%nat -> o_fxc a = o_fxc b.
Proof.
  intros H. apply functional_extensionality. intros i. apply functional_extensionality. intros j.
  unfold a, b, master_f, ocall. cbn [o_fxc]. bcase; bfacts; [|reflexivity].
  apply (D (head (d_x d) xbar) p c); assumption.
Qed.
End Objective.

Section Constraint.
Variables (ge fe gg fg : cfun R) (res : cres R).
Hypothesis De : delivers_c (d_he d) (d_x d) (d_p d) nc o ge fe.
Hypothesis Dg : delivers_c (d_hg d) (d_x d) (d_p d) nc o gg fg.
Let a := master_h d ge gg xbar p c res. Let b := master_h d fe fg xbar p c res.
Let x := head (d_x d) xbar.
Ltac done_with H := first [reflexivity | destruct (De x p c) as (? & ? & ? & ?); destruct (Dg x p c) as (? & ? & ? & ?);
  unfold value in *; match goal with Q : context [ge] |- context [ge] => apply Q; first [assumption|lia] | Q : context [gg] |- context [gg] => apply Q; first [assumption|lia] end].
Lemma agree_val : c_val a = c_val b.
Proof.
  apply functional_extensionality. intros i. unfold a, b, master_h, cput, ccall. fold x. cbn [c_val c_ddx c_ddp c_ddc].
  bcase; bfacts; try (f_equal; done_with idtac); done_with idtac.
Qed.
Lemma agree_ddx : e_ddx o = true -> c_ddx a = c_ddx b.
Proof.
  intros H. apply functional_extensionality. intros i. apply functional_extensionality. intros j.
  unfold a, b, master_h, cput, ccall. fold x. cbn [c_val c_ddx c_ddp c_ddc]. bcase; bfacts; done_with idtac.
Qed.
Lemma agree_ddp : e_ddp o = true \/ d_p d = 0%nat -> c_ddp a = c_ddp b.
Proof.
  intros H. apply functional_extensionality. intros i. apply functional_extensionality. intros j.
  unfold a, b, master_h, cput, ccall. fold x. cbn [c_val c_ddx c_ddp c_ddc]. bcase; bfacts; done_with idtac.
Qed.
Lemma agree_ddc : e_ddc o = true \/ nc = 0%nat -> c_ddc a = c_ddc b.
Proof.
  intros H. apply functional_extensionality. intros i. apply functional_extensionality. intros j.
  unfold a, b, master_h, cput, ccall. fold x. cbn [c_val c_ddx c_ddp c_ddc]. bcase; bfacts; done_with idtac.
Qed.
End Constraint.

Section External.
Variables (g f : cfun R) (res : cres R).
Hypothesis D : delivers_c (d_p d) (d_x d) (d_p d) nc o g f.
Let a := master_v d g xbar p c res. Let b := master_v d f xbar p c res.
Let x := head (d_x d) xbar.
Ltac done_v := first [reflexivity | apply (D x p c); first [assumption | lia]].
Lemma agree_vval : c_val a = c_val b.
Proof. apply functional_extensionality. intros i. unfold a, b, master_v, cput, ccall. fold x. cbn [c_val c_ddx c_ddp c_ddc]. bcase; bfacts; done_v. Qed.
Lemma agree_vddx : e_ddx o = true -> c_ddx a = c_ddx b.
Proof.
  intros H. apply functional_extensionality. intros i. apply functional_extensionality. intros j.
  unfold a, b, master_v, cput, ccall. fold x. cbn [c_val c_ddx c_ddp c_ddc]. bcase; bfacts; done_v.
Qed.
Lemma agree_vddp : e_ddp o = true \/ d_p d = 0%nat -> c_ddp a = c_ddp b.
Proof.
  intros H. apply functional_extensionality. intros i. apply functional_extensionality. intros j.
  unfold a, b, master_v, cput, ccall. fold x. cbn [c_val c_ddx c_ddp c_ddc]. bcase; bfacts; done_v.
Qed.
Lemma agree_vddc : e_ddc o = true \/ nc = 0%nat -> c_ddc a = c_ddc b.
Proof.
  intros H. apply functional_extensionality. intros i. apply functional_extensionality. intros j.
  unfold a, b, master_v, cput, ccall. fold x. cbn [c_val c_ddx c_ddp c_ddc]. bcase; bfacts; done_v.
Qed.
End External.
End Agree.
