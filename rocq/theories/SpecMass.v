(** Mass properties as integrals. *)
From Coq Require Import Reals List.
From Coquelicot Require Import Coquelicot.
From Verif Require Import Num Spec.
From Verif.Model Require Import Vector.
Import ListNotations.
Local Open Scope R_scope.

(** The integral of [f] over the triangle 0, v1, v2, counted negative if it runs clockwise: the
    points of the triangle are s v1 + t v2 with s, t >= 0 and s + t <= 1, the area element is v1 x v2. *)
Definition triangle_integral (f : RV -> R) (v1 v2 : RV) (I : R) : Prop :=
  exists g, (forall s, is_RInt (fun t => f (vplus (vscale s v1) (vscale t v2))) 0 (1 - s) (g s)) /\
            is_RInt (fun s => g s * (vx v1 * vy v2 - vy v1 * vx v2)) 0 1 I.
(** The integral over a polygon is the sum over the triangles its edges form with the origin
    (those seen from outside cancel what lies outside). *)
Inductive sides_integral (f : RV -> R) : list (RV * RV) -> R -> Prop :=
| sides_nil : sides_integral f [] 0
| sides_cons v1 v2 l i j : triangle_integral f v1 v2 i -> sides_integral f l j -> sides_integral f ((v1, v2) :: l) (i + j).
Definition sides (vs : list RV) : list (RV * RV) := match vs with [] => [] | v :: tl => combine vs (tl ++ [v]) end.
Definition polygon_integral (f : RV -> R) (vs : list RV) : R -> Prop := sides_integral f (sides vs).
(** The integral of a function of the distance to the centre over a ring: circles of radius rho, length 2 pi rho. *)
Definition ring_integral (f : R -> R) (r1 r2 : R) (I : R) : Prop := is_RInt (fun rho => f rho * (2 * PI * rho)) r1 r2 I.
