(** Histories of one shape (C107-C110): its geometry and its mass, nothing else. *)
From Coq Require Import Reals List.
From Verif Require Import Num Spec.
From Verif.Model Require Import Vector BB Body Shapes ShapeMass.
Import ListNotations.
Local Open Scope R_scope.

Inductive shape_op := SSetMass (m : R) | SSetDensity (d : R) | SSetRadius (r : R) | SSetEndpoints (a b : RV) | SSetVerts (vs : list RV).
(** the code *)
Definition do_shape (s : MShape R) (o : shape_op) : MShape R :=
  match o with
  | SSetMass m => set_mass s m | SSetDensity d => set_density s d | SSetRadius r => set_radius s r
  | SSetEndpoints a b => set_endpoints s a b | SSetVerts vs => set_verts s vs
  end.
(** what it should do to geometry and mass *)
Definition geometry (g : Geo R) (o : shape_op) : Geo R :=
  match o, g with
  | SSetRadius r, GCircle c _ => GCircle c r
  | SSetRadius r, GSegment a b _ => GSegment a b r
  | SSetRadius r, GPoly vs _ => GPoly vs r
  | SSetEndpoints a b, GSegment _ _ r => GSegment a b r
  | SSetVerts vs, GPoly _ r => GPoly vs r
  | _, _ => g
  end.
Definition area_of (g : Geo R) : R :=
  match g with
  | GCircle _ r => PI * (r * r)
  | GSegment a b r => PI * (r * r) + 2 * r * dist a b
  | GPoly vs r => area_for_poly vs r
  end.
Definition mass_after (g : Geo R) (m : R) (o : shape_op) : R := match o with SSetMass x => x | SSetDensity d => d * area_of g | _ => m end.
Fixpoint history (g : Geo R) (m : R) (os : list shape_op) : Geo R * R :=
  match os with [] => (g, m) | o :: os => history (geometry g o) (mass_after g m o) os end.
(** SetRadius on a polygon *)
Definition rounds_polygon (g : Geo R) (o : shape_op) : Prop := match g, o with GPoly _ _, SSetRadius _ => True | _, _ => False end.
