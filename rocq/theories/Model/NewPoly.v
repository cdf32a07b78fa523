(** poly.go:159-179 and 218-227: polygons from arbitrary points. *)
From Coq Require Import List.
From Verif Require Import Num.
From Verif.Model Require Import Vector BB Transform Shapes Hull.
Import ListNotations.
Section NewPoly.
Context {T : Type} `{Num T}.
(** poly.go:159-168 (NewPolyShape) and 218-227 (SetVertsUnsafe): the points are transformed, then their hull is taken with
    tolerance 0; [None] is Go's index panic for an empty slice *)
Definition poly_hull (vs : list (Vec T)) (t : Transform T) : option (list (Vec T)) :=
  match convex_hull (map (t_point t) vs) nzero with Some (arr, n, _) => Some (firstn n arr) | None => None end.
(** poly.go:159-179: NewPolyShape, then NewPolyShapeRaw and SetVerts: the untransformed planes *)
Definition new_poly_shape (vs : list (Vec T)) (t : Transform T) : option (list (Plane T)) :=
  match poly_hull vs t with Some hull => Some (poly_planes hull) | None => None end.
End NewPoly.
