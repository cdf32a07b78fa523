(** Vocabulary for kinetic energy (C123-C125). *)
From Coq Require Import Reals ZArith Bool List Lra.
From Verif Require Import Num Spec SpecBody SpecSolver.
From Verif.Model Require Import Vector BB Transform Body Solver Step.
Import ListNotations.
Local Open Scope R_scope.

(** what KineticEnergy reports, summed over the listed bodies *)
Definition total_energy (w : world) (ids : list nat) : R := fold_right (fun i s => b_kinetic_energy (w i) + s) 0 ids.
(** the ground: cannot be moved, does not move *)
Definition fixed (b : Body R) : Prop := immovable b /\ b_v b = mkV 0 0 /\ b_w b = 0.
(** different bodies, each of finite mass or part of the ground *)
Definition mechanical (w : world) (ids : list nat) : Prop := NoDup ids /\ forall i, In i ids -> finite_mass (w i) \/ fixed (w i).
Definition quarter (n : RV) : RV := mkV (- vy n) (vx n).
(** [m] is the effective mass belonging to the inverse effective mass [k], or less *)
Definition tuned (m k : R) : Prop := 0 <= m /\ m * k <= 1.

(** A contact that is not to bounce, has only pushed so far and not yet rubbed (without friction it never does). *)
Definition calm_contact (n : RV) (a b : Body R) (c : Contact R) : Prop :=
  c_bounce c = 0 /\ 0 <= c_jnAcc c /\ c_jtAcc c = 0 /\
  tuned (c_nMass c) (eff a b (c_r1 c) (c_r2 c) n) /\ tuned (c_tMass c) (eff a b (c_r1 c) (c_r2 c) (quarter n)).
(** no conveyor *)
Definition calm_arb (a b : Body R) (arb : Arb R) : Prop :=
  0 <= ar_u arb /\ ar_surf arb = mkV 0 0 /\ Forall (calm_contact (ar_n arb) a b) (ar_contacts arb).
(** A joint that has no position error to correct and no motor rate, whose impulse so far is within its limit; a spring whose
    damping has not acted yet in this step; a pivot that is not held back by its maximal force. *)
Definition calm_joint (p : @Params R) (dt : R) (a b : Body R) (j : @Joint R) : Prop :=
  let M := maxForce p * dt in
  match j with
  | JPin j => pin_bias j = 0 /\ Rabs (pin_jnAcc j) <= M /\ tuned (pin_nMass j) (eff a b (pin_r1 j) (pin_r2 j) (pin_n j))
  | JSlide j => sl_bias j = 0 /\ - M <= sl_jnAcc j <= 0 /\ tuned (sl_nMass j) (eff a b (sl_r1 j) (sl_r2 j) (sl_n j))
  | JPivot j => piv_bias j = mkV 0 0 /\ 0 < b_minv a + b_minv b /\ piv_k j = k_tensor a b (piv_r1 j) (piv_r2 j) /\
      norm (vplus (piv_jAcc j) (mat_transform (piv_k j) (vscale (-1) (closing a b (piv_r1 j) (piv_r2 j))))) <= M
  | JGroove _ => False
  | JGear j => ge_bias j = 0 /\ ge_ratio j <> 0 /\ ge_ratio_inv j = / ge_ratio j /\ Rabs (ge_jAcc j) <= M /\
      ge_iSum j = 1 / (b_iinv a * ge_ratio_inv j + ge_ratio j * b_iinv b)
  | JRatchet j => ra_bias j = 0
  | JRotary j => ro_bias j = 0
  | JMotor j => mo_rate j = 0 /\ Rabs (mo_jAcc j) <= M /\ tuned (mo_iSum j) (b_iinv a + b_iinv b)
  | JSpring j => sp_target j = 0 /\ 0 <= sp_vCoef j <= 1 /\ tuned (sp_nMass j) (eff a b (sp_r1 j) (sp_r2 j) (sp_n j))
  | JRSpring j => rs_target j = 0 /\ 0 <= rs_wCoef j <= 1 /\ tuned (rs_iSum j) (b_iinv a + b_iinv b)
  end.
Definition calm (a b : Body R) (x : action) : Prop :=
  match x with
  | Contact_iteration arb => calm_arb a b arb
  | Contact_cached _ k => k = 0
  | Joint_prestep _ j _ => is_spring j = false
  | Joint_cached j k => k = 0
  | Joint_iteration p j dt => calm_joint p dt a b j
  end.
(** every action calm at the moment it happens *)
Fixpoint all_calm (w : world) (l : list (nat * nat * action)) : Prop :=
  match l with [] => True | (i, k, x) :: l => calm (w i) (w k) x /\ all_calm (act_on w (i, k, x)) l end.

(** For the solver's loop: the joints that stay calm from iteration to iteration whatever the rest of the loop does. *)
Definition steady (j : @Joint R) : bool := match j with JPivot _ | JGroove _ | JSpring _ | JRSpring _ => false | _ => true end.
Definition between {X} (ids : list nat) (l : list (link X)) : Prop := forall i k x, In (i, k, x) l -> i <> k /\ In i ids /\ In k ids.
Definition smooth (w : world) (t : link (Arb R)) : Prop := let '(i, k, arb) := t in ar_u arb = 0 /\ calm_arb (w i) (w k) arb.
Definition slack (dt : R) (w : world) (t : link (@Params R * @Joint R)) : Prop :=
  let '(i, k, (p, j)) := t in steady j = true /\ calm_joint p dt (w i) (w k) j.

(** For a whole step: frictionless, inelastic contacts that have not pushed yet, joints that correct nothing
    (ErrorBias 1, motor rate 0) and have not pushed yet. *)
Definition smooth_arbiter (arb : Arb R) : Prop :=
  ar_e arb = 0 /\ ar_u arb = 0 /\ ar_surf arb = mkV 0 0 /\ norm2 (ar_n arb) <= 1 /\ Forall (fun c => c_jnAcc c = 0 /\ c_jtAcc c = 0) (ar_contacts arb).
Definition slack_joint (c : @Params R * @Joint R) : Prop :=
  let '(p, j) := c in 0 <= maxForce p /\ errorBias p = 1 /\ 0 <= maxBias p /\
  match j with
  | JPin j => pin_jnAcc j = 0 | JSlide j => sl_jnAcc j = 0
  | JGear j => ge_ratio j <> 0 /\ ge_ratio_inv j = / ge_ratio j /\ ge_jAcc j = 0
  | JRatchet j => ra_jAcc j = 0 | JRotary j => ro_jAcc j = 0
  | JMotor j => mo_rate j = 0 /\ mo_jAcc j = 0
  | _ => False
  end.
(** nothing pushes from outside: no gravity, no forces, no negative drag *)
Definition undriven (se : Settings R) (s : Scene R) (ids : list nat) : Prop :=
  se_gravity se = mkV 0 0 /\ 0 < se_damping se <= 1 /\ forall i, In i ids -> b_f (sc_body s i) = mkV 0 0 /\ b_t (sc_body s i) = 0.
