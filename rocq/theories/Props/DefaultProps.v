(** C140: how fast a new joint corrects its error, whatever the step size. *)
From Coq Require Import Reals List Lra Lia.
From Verif Require Import Num Spec.
From Verif.Model Require Import Vector Body Solver.
From Verif.Proofs Require Import RTac.
From Verif.Props Require Import SolverProps2.
Import ListNotations.
Local Open Scope R_scope.

Definition sum (l : list R) : R := fold_right Rplus 0 l.
(** the error [e] of a joint after steps of [dts], of which each leaves the fraction that PreStep asks for (C67) *)
Definition after (eb e : R) (dts : list R) : R := fold_left (fun e dt => npow eb dt * e) dts e.
Lemma after_power eb dts : forall e, 0 < eb -> after eb e dts = npow eb (sum dts) * e.
Proof.
  induction dts as [|d l IH]; intros e P; unfold after in *; cbn [fold_left sum fold_right].
  - unR. rewrite Rpower_O by exact P. ring.
  - rewrite IH by exact P. unR. fold (sum l). rewrite Rpower_plus. ring.
Qed.
(** only the time that has passed matters, not the steps it was divided into *)
Theorem C140_step_size : forall eb e dts dts', 0 < eb -> sum dts = sum dts' -> after eb e dts = after eb e dts'.
Proof. intros eb e l l' P E. rewrite !after_power by exact P. now rewrite E. Qed.
(** a new joint has no limits (but the largest number) and loses a tenth of its error per sixtieth of a second *)
Theorem C140_default : forall e dts, maxForce (@new_params R _ _) = ninf /\ maxBias (@new_params R _ _) = ninf /\ after (errorBias new_params) e dts = Rpower (9 / 10) (60 * sum dts) * e /\ after (errorBias new_params) e [1 / 60] = 9 / 10 * e.
Proof.
  intros e dts. assert (P : 0 < errorBias (@new_params R _ _)) by (unfold new_params; cbn [errorBias]; unR; unfold Rpower; apply exp_pos).
  assert (B : forall x, npow (errorBias (@new_params R _ _)) x = Rpower (9 / 10) (60 * x)). { intros x. unfold new_params. cbn [errorBias]. unR. rewrite Rpower_mult. f_equal; lra. }
  split; [reflexivity|]. split; [reflexivity|]. split; [rewrite after_power, B by exact P; reflexivity|].
  unfold after. cbn [fold_left]. rewrite B. replace (60 * (1 / 60)) with 1 by field. rewrite Rpower_1 by lra. reflexivity.
Qed.
(** the fraction is what a joint asks for: a gear joint with the parameters it is made with *)
Theorem C140_gear : forall (j : @Gear R) dt a b, 0 < dt -> let j' := gear_prestep new_params j dt a b in let e := b_a b * ge_ratio j - b_a a - ge_phase j in
  Rabs (bias_coef (errorBias new_params) dt * e / dt) <= ninf -> e + dt * ge_bias j' = after (errorBias new_params) e [dt].
Proof. intros j dt a b P j' e L. apply (C67_gear new_params j dt a b); [lra| |exact L]. unfold new_params. cbn [maxBias]. apply (IZR_le 0 (2 ^ 1024 - 2 ^ 971)). vm_compute. discriminate. Qed.
Example C140_nonvacuous : sum [1 / 60; 1 / 60] = sum [1 / 30].
Proof. unfold sum. cbn. lra. Qed.
Print Assumptions C140_step_size. Print Assumptions C140_default. Print Assumptions C140_gear.
