(** The mass properties of shapes: everything.go:204-224 and 261-263, circle.go:11-46, segment.go:40-72 and 174-181,
    poly.go:34-36, 159-192 and 229-246, shape.go:82-111. *)
From Coq Require Import ZArith Bool List.
From Verif Require Import Num.
From Verif.Model Require Import Vector BB Transform Body Shapes.
Import ListNotations.
Local Open Scope num_scope.

Section ShapeMass.
Context {T : Type} `{Num T}.
Notation V := (Vec T).

(** everything.go:205-207 *)
Definition moment_for_box (mass width height : T) : T := mass * (width * width + height * height) / nlit 12 1.
(** everything.go:210-217 *)
Definition moment_for_box2 (mass : T) (b : BB T) : T :=
  let width := br b - bl b in let height := bt b - bb b in
  let offset := vmult (mkV (bl b + br b) (bb b + bt b)) nhalf in
  moment_for_box mass width height + mass * vlensq offset.
(** everything.go:222-224 *)
Definition moment_for_circle (mass r1 r2 : T) (offset : V) : T := mass * (nhalf * (r1 * r1 + r2 * r2) + vlensq offset).

Context `{Trig T}.
(** everything.go:261-263 *)
Definition area_for_circle (r1 r2 : T) : T := npi * nabs (r1 * r1 - r2 * r2).

(** circle.go:20-27 *)
Definition circle_mass_info (mass radius : T) (center : V) : MassInfo T :=
  mkMI mass (moment_for_circle none_ nzero radius vzero) (area_for_circle nzero radius) center.
(** segment.go:174-181 *)
Definition segment_mass_info (mass : T) (a b : V) (r : T) : MassInfo T :=
  mkMI mass (moment_for_box none_ (vdist a b + ntwo * r) (ntwo * r)) (area_for_segment a b r) (vlerp a b nhalf).
(** poly.go:238-246 *)
Definition poly_mass_info (mass : T) (vs : list V) (r : T) : MassInfo T :=
  let centroid := centroid_for_poly vs in
  mkMI mass (moment_for_poly none_ vs (vneg centroid) r) (area_for_poly vs r) centroid.

(** the untransformed geometry of a shape, and its massInfo (shape.go:22-42) *)
Inductive Geo := GCircle (c : V) (r : T) | GSegment (a b : V) (r : T) | GPoly (vs : list V) (r : T).
Record MShape := mkMS { ms_geo : Geo; ms_info : MassInfo T }.
Definition geo_info (mass : T) (g : Geo) : MassInfo T :=
  match g with GCircle c r => circle_mass_info mass r c | GSegment a b r => segment_mass_info mass a b r | GPoly vs r => poly_mass_info mass vs r end.
(** circle.go:11-18, segment.go:160-172, poly.go:170-179 (NewPolyShapeRaw): a new shape has no mass *)
Definition new_shape (g : Geo) : MShape := mkMS g (geo_info nzero g).
(** poly.go:181-201 NewBox and NewBox2 *)
Definition box_verts (b : BB T) : list V := [mkV (br b) (bb b); mkV (br b) (bt b); mkV (bl b) (bt b); mkV (bl b) (bb b)].
Definition new_box2 (b : BB T) (r : T) : MShape := new_shape (GPoly (box_verts b) r).
Definition new_box (w h r : T) : MShape := let hw := w / ntwo in let hh := h / ntwo in new_box2 (mkBB (- hw) (- hh) hw hh) r.

(** shape.go:86-91 SetMass (its effect on the body is b_shape_set_mass of Model/Body.v) *)
Definition set_mass (s : MShape) (m : T) : MShape := mkMS (ms_geo s) (mkMI m (mi_i (ms_info s)) (mi_area (ms_info s)) (mi_cog (ms_info s))).
(** shape.go:93-95 *)
Definition density (s : MShape) : T := mi_m (ms_info s) / mi_area (ms_info s).
(** shape.go:97-99 *)
Definition set_density (s : MShape) (d : T) : MShape := set_mass s (d * mi_area (ms_info s)).
(** shape.go:101-103 *)
Definition shape_moment (s : MShape) : T := mi_m (ms_info s) * mi_i (ms_info s).
(** circle.go:38-46, segment.go:40-48, poly.go:34-36 SetRadius (the effect of the first two on the body is b_shape_set_geometry) *)
Definition set_radius (s : MShape) (r : T) : MShape :=
  match ms_geo s with
  | GCircle c _ => mkMS (GCircle c r) (circle_mass_info (mi_m (ms_info s)) r c)
  | GSegment a b _ => mkMS (GSegment a b r) (segment_mass_info (mi_m (ms_info s)) a b r)
  | GPoly vs _ => mkMS (GPoly vs r) (ms_info s)
  end.
(** segment.go:62-72 SetEndpoints *)
Definition set_endpoints (s : MShape) (a b : V) : MShape :=
  match ms_geo s with GSegment _ _ r => mkMS (GSegment a b r) (segment_mass_info (mi_m (ms_info s)) a b r) | _ => s end.
(** poly.go:229-236 SetVertsRaw *)
Definition set_verts (s : MShape) (vs : list V) : MShape :=
  match ms_geo s with GPoly _ r => mkMS (GPoly vs r) (poly_mass_info (mi_m (ms_info s)) vs r) | _ => s end.
End ShapeMass.
Arguments Geo : clear implicits. Arguments MShape : clear implicits.
