(** Specification vocabulary for the queries of a space. *)
From Coq Require Import Reals List Bool Arith.
From Verif Require Import Num Spec SpecShapes SpecIndex.
From Verif.Model Require Import Vector BB BBTree Transform Shapes Handlers Collision Query.
From Verif.Proofs Require Import Geom.
Import ListNotations.
Local Open Scope R_scope.

(** shapes as the API leaves them: a valid shape of the body, moved by the body's transform, with the box that was computed with it *)
Inductive placed : Shape R -> BB R -> Prop :=
| placed_circle c r t : 0 <= r -> placed (Circle (t_point t c) r) (snd (circle_cache c r t))
| placed_segment a b r t : 0 <= r -> a <> b -> rigid t -> placed (Segment (fst (seg_cache (new_segment a b r) t))) (snd (seg_cache (new_segment a b r) t))
| placed_poly vs r t : 0 <= r -> convex_ccw vs -> rigid t -> placed (Poly (fst (poly_cache (poly_planes vs) r t)) r) (snd (poly_cache (poly_planes vs) r t)).
(** no distance overflows *)
Definition in_range (p : RV) (s : Shape R) : Prop := match s with Poly ps _ => exists q, In q ps /\ dist p (pl_v0 q) < MaxFloat64 | _ => True end.
(** the query may see the shape *)
Definition accepts {T} (f : Filter) (s : QShape T) : Prop := reject (qs_filter s) f = false.
Definition visible {T} (f : Filter) (s : QShape T) : Prop := accepts f s /\ qs_sensor s = false.
(** all shapes of the space *)
Definition all_members {T} (h : list (op T)) : list nat := members true h ++ members false h.
(** the index has seen the boxes the shapes have now *)
Definition up_to_date {T} `{Num T} (e0 : env T) (h : list (op T)) (W : nat -> QShape T) : Prop := forall d id, In id (members d h) -> indexed e0 d id h = Some (box_of (W id)).

(** shapes whose segment queries are exact (C46): discs, and segments and convex polygons without radius; with the box the API gave them and the set of points they are.  The segment query goes from [a] to [b]; in ideal arithmetic it must not run along the line of a thin segment, nor parallel to an edge of a polygon it starts beyond (a division by zero, which floating point answers differently from the reals). *)
Inductive exact (a b : RV) : Shape R -> BB R -> (RV -> Prop) -> Prop :=
| exact_circle c r t : 0 <= r -> exact a b (Circle (t_point t c) r) (snd (circle_cache c r t)) (fun p => dist p (t_point t c) <= r)
| exact_segment p q t : p <> q -> rigid t -> turn (t_point t p) (t_point t q) a <> 0 -> turn (t_point t p) (t_point t q) b <> 0 ->
    exact a b (Segment (fst (seg_cache (new_segment p q 0) t))) (snd (seg_cache (new_segment p q 0) t)) (on_segment (t_point t p) (t_point t q))
| exact_poly vs t : convex_ccw vs -> rigid t -> (forall u v, In (u, v) (ring (map (t_point t) vs)) -> turn u v a <= 0 -> turn u v a <> turn u v b) ->
    (exists q, In q (fst (poly_cache (poly_planes vs) 0 t)) /\ dist a (pl_v0 q) < MaxFloat64) ->
    exact a b (Poly (fst (poly_cache (poly_planes vs) 0 t)) 0) (snd (poly_cache (poly_planes vs) 0 t)) (region (map (t_point t) vs)).
