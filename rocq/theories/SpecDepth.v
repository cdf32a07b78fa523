(** Penetration depth: what it takes to move two overlapping sets apart (reals). *)
From Coq Require Import Reals List.
From Verif Require Import Num Spec SpecShapes SpecCollide.
From Verif.Model Require Import Vector BB Transform Shapes.
Import ListNotations.
Local Open Scope R_scope.

(** the set displaced by [v] *)
Definition moved (v : RV) (S : RV -> Prop) : RV -> Prop := fun x => S (vminus x v).
(** the sets overlap, and still do after every small displacement of the second *)
Definition robustly (A B : RV -> Prop) : Prop := exists e, 0 < e /\ forall v, norm v <= e -> overlap A (moved v B).

(** ** polygons with well-formed corners *)
(** consecutive elements of a closed list *)
Definition pairs {X : Type} (l : list X) : list (X * X) := match l with [] => [] | x :: _ => combine (last l x :: l) l end.
(** a polygon with at least three different corners, every corner strictly to the left of every edge it is not an end of; edges of length [len] at least;
    with every corner the outward normal of the edge that ends there, no longer than 1.
    No corner is straight (a normal is not as far along the next or previous one as that is itself) and none is sharp ([k] is 1/2 for a box, 1/4 for an equilateral triangle). *)
Record well_formed (len k : R) (ps : list (Plane R)) : Prop := {
  wf_three : (3 <= length ps)%nat;
  wf_different : NoDup (map pl_v0 ps);
  wf_convex : forall p q z, In (p, q) (pairs ps) -> In z ps -> pl_v0 z <> pl_v0 p -> pl_v0 z <> pl_v0 q -> 0 < turn (pl_v0 p) (pl_v0 q) (pl_v0 z);
  wf_long : forall p q, In (p, q) (pairs ps) -> len <= dist (pl_v0 p) (pl_v0 q);
  wf_normal : forall p q, In (p, q) (pairs ps) -> norm (pl_n q) <= 1 /\ exists c, 0 < c /\ pl_n q = mkV (c * (vy (pl_v0 q) - vy (pl_v0 p))) (- c * (vx (pl_v0 q) - vx (pl_v0 p)));
  wf_corner : forall p q, In (p, q) (pairs ps) -> let m := pl_n p in let m' := pl_n q in
    inner m m' < inner m m /\ inner m m' < inner m' m' /\ 2 * k <= inner m m + inner m m' /\ 2 * k <= inner m' m' + inner m m' }.
(** the overlap outlasts every displacement of the second set by up to [d] *)
Definition deeper (d : R) (A B : RV -> Prop) : Prop := forall v, norm v <= d -> overlap A (moved v B).
