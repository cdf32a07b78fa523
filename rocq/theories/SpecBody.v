(** Vocabulary for the body properties (C07, C08, C52, C56). *)
From Coq Require Import Reals ZArith Bool List Lra.
From Verif Require Import Num Spec.
From Verif.Model Require Import Vector BB Transform Body.
Import ListNotations.
Local Open Scope R_scope.

(** Every call of the public API that acts on one body on its own. *)
Inductive body_op :=
| OpSetPosition (p : RV) | OpSetAngle (a : R) | OpSetMass (m : R) | OpSetMoment (i : R)
| OpSetVelocity (v : RV) | OpSetAngularVelocity (w : R) | OpSetForce (f : RV) | OpSetTorque (t : R)
| OpForceWorld (f p : RV) | OpForceLocal (f p : RV) | OpImpulseWorld (j p : RV) | OpImpulseLocal (j p : RV)
| OpAddShape (s : MassInfo R) | OpRemoveShape (k : nat) | OpShapeMass (k : nat) (m : R)
| OpShapeGeometry (k : nat) (i area : R) (cog : RV)   (* SetRadius, SetEndpoints, SetVertsRaw of the k-th shape *)
| OpSetType (ty : BodyType)
| OpUpdateVelocity (g : RV) (damping dt : R) | OpUpdatePosition (dt : R)
| OpSolver (v : RV) (w : R) (vb : RV) (wb : R)   (* whatever the contact solver leaves in the velocities *).
Definition do_op (b : Body R) (o : body_op) : Body R :=
  match o with
  | OpSetPosition p => b_set_position b p | OpSetAngle a => b_set_angle b a
  | OpSetMass m => b_set_mass b m | OpSetMoment i => b_set_moment b i
  | OpSetVelocity v => b_set_velocity_vector b v | OpSetAngularVelocity w => b_set_angular_velocity b w
  | OpSetForce f => b_set_force b f | OpSetTorque t => b_set_torque b t
  | OpForceWorld f p => b_apply_force_world b f p | OpForceLocal f p => b_apply_force_local b f p
  | OpImpulseWorld j p => b_apply_impulse_world b j p | OpImpulseLocal j p => b_apply_impulse_local b j p
  | OpAddShape s => b_add_shape b s | OpRemoveShape k => b_remove_shape b k
  | OpShapeMass k m => b_shape_set_mass b k m
  | OpShapeGeometry k i ar c => b_shape_set_geometry b k i ar c
  | OpSetType ty => b_set_type b ty
  | OpUpdateVelocity g d dt => b_update_velocity b g d dt | OpUpdatePosition dt => b_update_position b dt
  | OpSolver v w vb wb => upd_bias (upd_vel b v w) vb wb
  end.
(** The body after [NewBody mass moment] and then any calls. *)
Definition body_after (mass moment : R) (h : list body_op) : Body R := fold_left do_op h (b_new mass moment).

(** rotation of a vector by an angle *)
Definition turn (a : R) (v : RV) : RV :=
  mkV (cos a * vx v - sin a * vy v) (sin a * vx v + cos a * vy v).

(** finite sums *)
Fixpoint rsum {A} (f : A -> R) (l : list A) : R := match l with [] => 0 | x :: t => f x + rsum f t end.
(** the shapes that count: those of positive mass *)
Definition massive (l : list (MassInfo R)) : list (MassInfo R) :=
  filter (fun s => if Rlt_dec 0 (mi_m s) then true else false) l.
Definition total_mass (l : list (MassInfo R)) : R := rsum (fun s => mi_m s) (massive l).
(** mass-weighted mean of the centres of gravity *)
Definition mean_cog (l : list (MassInfo R)) : RV :=
  mkV (rsum (fun s => mi_m s * vx (mi_cog s)) (massive l) / total_mass l)
      (rsum (fun s => mi_m s * vy (mi_cog s)) (massive l) / total_mass l).
(** parallel-axis theorem: each shape contributes its own moment about its own centre
    (mass times moment per unit mass) plus mass times squared offset from the common centre [c] *)
Definition parallel_axis (l : list (MassInfo R)) (c : RV) : R :=
  rsum (fun s => mi_m s * mi_i s + mi_m s * dist2 (mi_cog s) c) (massive l).

(** The bodies a history builds without setting mass or moment by hand. *)
Definition manual_mass (o : body_op) : Prop := match o with OpSetMass _ | OpSetMoment _ => True | _ => False end.
Definition automatic (h : list body_op) : Prop := Forall (fun o => ~ manual_mass o) h.

(** One [Space.Step(dt)] as seen by a body that touches nothing: space.go:699-702 and 736-741
    (positions first, then velocities; [damping] is Pow(space.damping, dt)). *)
Definition free_step (g : RV) (damping dt : R) (b : Body R) : Body R :=
  b_update_velocity (b_update_position b dt) g damping dt.
Fixpoint free_steps (g : RV) (damping dt : R) (n : nat) (b : Body R) : Body R :=
  match n with O => b | S n => free_step g damping dt (free_steps g damping dt n b) end.
