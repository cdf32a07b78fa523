(** What the narrow phase is about: two convex cores, each thickened by a radius (reals). *)
From Coq Require Import Reals List NArith.
From Verif Require Import Num Spec SpecShapes.
From Verif.Model Require Import Vector BB Transform Shapes Collision.
Import ListNotations.

(** the corner points of a shape in world coordinates, and its rounding *)
Definition corners (s : Shape R) : list RV := match s with Circle c _ => [c] | Segment g => [sg_ta g; sg_tb g] | Poly ps _ => map pl_v0 ps end.
Definition radius (s : Shape R) : R := match s with Circle _ r => r | Segment g => sg_r g | Poly _ r => r end.
Definition core (s : Shape R) : RV -> Prop := in_hull (corners s).
Definition covers (s : Shape R) : RV -> Prop := near (core s) (radius s).
Definition huge : R := 10 ^ 150.
(** a shape with at least one corner and at most 256, coordinates up to 10^150 *)
Definition regular (s : Shape R) : Prop :=
  corners s <> [] /\ (length (corners s) <= 256)%nat /\ forall v, In v (corners s) -> Rabs (vx v) <= huge /\ Rabs (vy v) <= huge.
Definition tol : R := 1 / 1000000000000000.
(** along [n] every point of [B] is at least [d] beyond every point of [A], and the points [a], [b] attain it (up to 1e-15) *)
Definition axis (A B : RV -> Prop) (a b n : RV) (d : R) : Prop :=
  norm n <= 1 /\ (forall x y, A x -> B y -> d - tol <= inner n (vminus y x)) /\ Rabs (inner n (vminus b a) - d) <= tol.
Definition overlap (A B : RV -> Prop) : Prop := exists z, A z /\ B z.
Definition nearest (A B : RV -> Prop) (a b : RV) : Prop := forall x y, A x -> B y -> dist a b <= dist x y.
Definition differs (A B : Shape R) (u : RV) : Prop := exists x y, In x (corners A) /\ In y (corners B) /\ u = vminus y x.
(** the answer [a], [b], [n], [d] about two shapes' cores.
    Either the cores overlap and the axis shows the depth [-d];
    or [a] and [b] are nearest points, [d] (if positive) is shown by the axis, and [d] is their distance, up to
    the factor [w/(w+1e-15)] for the distance [w] of two differences of corners, except that it is 0 if the origin is in line with these two. *)
Definition answer (A B : Shape R) (a b n : RV) (d : R) : Prop :=
  core A a /\ core B b /\
  (overlap (core A) (core B) /\ d <= 0 /\ axis (core A) (core B) a b n d \/
   nearest (core A) (core B) a b /\ 0 <= d <= dist a b /\ (0 < d -> axis (core A) (core B) a b n d) /\
   exists u w, differs A B u /\ differs A B w /\ u <> w /\ (dist a b * dist u w <= d * (dist u w + tol) \/ d = 0 /\ turn u w (mkV 0 0) = 0)).
(** the rounding is not negative and a segment's stored normal is no longer than 1 *)
Definition sound (s : Shape R) : Prop := 0 <= radius s /\ match s with Segment g => norm (sg_tn g) <= 1 | _ => True end.
Definition circle_poly (a b : CShape R) : bool := match cs_class a, cs_class b with Circle _ _, Poly _ _ => true | _, _ => false end.
