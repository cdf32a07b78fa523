(** Plane geometry for the shape properties (reals). *)
From Coq Require Import Reals List Lra.
From Verif Require Import Num Spec.
From Verif.Model Require Import Vector BB.
Import ListNotations.

(** the convex hull of a list of points *)
Inductive in_hull (vs : list RV) : RV -> Prop :=
| hull_vertex v : In v vs -> in_hull vs v
| hull_between p q x : in_hull vs p -> in_hull vs q -> on_segment p q x -> in_hull vs x.
(** within [r] of a point of the set *)
Definition near (S : RV -> Prop) (r : R) (p : RV) : Prop := exists q, S q /\ dist p q <= r.
(** [d] is the distance from [p] to the (closed) set *)
Definition distance_to (S : RV -> Prop) (p : RV) (d : R) : Prop := (exists q, S q /\ dist p q = d) /\ forall q, S q -> d <= dist p q.
(** [t] is the first fraction of the segment from [a] to [b] at which it is in the set *)
Definition first_hit (S : RV -> Prop) (a b : RV) (t : R) : Prop := 0 <= t <= 1 /\ S (seg_point a b t) /\ forall s, 0 <= s <= 1 -> S (seg_point a b s) -> t <= s.
Definition no_hit (S : RV -> Prop) (a b : RV) : Prop := forall s, 0 <= s <= 1 -> ~ S (seg_point a b s).

(** twice the signed area of the triangle [a b c]: positive if it turns left *)
Definition turn (a b c : RV) : R := (vx b - vx a) * (vy c - vy a) - (vy b - vy a) * (vx c - vx a).
(** the closed polygon's edges, ending at each vertex in turn *)
Definition ring (vs : list RV) : list (RV * RV) := match vs with [] => [] | v :: _ => combine (last vs v :: vs) vs end.
(** convex and counter-clockwise: no vertex is right of an edge, and not all of them are in line *)
Definition convex_ccw (vs : list RV) : Prop :=
  (3 <= length vs)%nat /\ NoDup vs /\ (forall a b v, In (a, b) (ring vs) -> In v vs -> 0 <= turn a b v) /\
  exists a b v, In (a, b) (ring vs) /\ In v vs /\ 0 < turn a b v.
(** the region of such a polygon *)
Definition region (vs : list RV) (p : RV) : Prop := forall a b, In (a, b) (ring vs) -> 0 <= turn a b p.
Definition boundary (vs : list RV) (p : RV) : Prop := exists a b, In (a, b) (ring vs) /\ on_segment a b p.
