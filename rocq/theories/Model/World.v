(** The broad phase, the narrow phase and the bookkeeping of a Space, put together: what Space.Step hands to the collision
    bookkeeping (Model/Space.v) is what the bounding-box trees report (Model/BBTree.v), filtered by QueryReject and Collide
    (Model/Collision.v).
    Simplification: the warm-start hint of each pair (collisionId) is any number [ids]. *)
From Coq Require Import ZArith NArith Bool List Arith.
From Verif Require Import Num.
From Verif.Model Require Import Vector BB BBTree Shapes Handlers Collision Query Space.
Import ListNotations.

Section World.
Context {T : Type} {NT : Num T} {TM : Type} {TT : Time TM}.
(** shapes as they stand in the world, with cached box and filter, and the velocities of their bodies *)
Record Geo := mkGeo { g_shape : nat -> QShape T; g_vel : nat -> Vec T }.
(** spatialindex.go:22-24 (the trees read the cached box) and space.go:101-103 (velocityFunc) *)
Definition env_of (g : Geo) : env T := mkEnv (fun x => box_of (g_shape g x)) (g_vel g).
(** space.go:509-523 *)
Definition query_reject (s : Space TM) (g : Geo) (a b : nat) : bool :=
  Nat.eqb (ss_body (sp_s s a)) (ss_body (sp_s s b)) || reject (qs_filter (g_shape g a)) (qs_filter (g_shape g b)) ||
  negb (bb_intersects (box_of (g_shape g a)) (box_of (g_shape g b))) || reject_constraints s (ss_body (sp_s s a)) (ss_body (sp_s s b)).
(** space.go:419-441: a reported pair gets to the arbiter set in the order of [info.a], [info.b], or not at all *)
Definition collide_one (s : Space TM) (g : Geo) (ids : nat -> nat -> N) (p : nat * nat) : option (nat * nat) :=
  let (a, b) := p in
  if query_reject s g a b then None else
  match collide (qs_shape (g_shape g a)) (qs_shape (g_shape g b)) (ids a b) with
  | Some (swapped, info) => match ci_arr info with [] => None | _ => Some (if swapped then (b, a) else (a, b)) end
  | None => None
  end.
(** space.go:706-707: ReindexQuery calls SpaceCollideShapesFunc for each reported pair *)
Definition collide_pairs (s : Space TM) (g : Geo) (ids : nat -> nat -> N) (rep : list (nat * nat)) : list (nat * nat) :=
  flat_map (fun p => match collide_one s g ids p with Some q => [q] | None => [] end) rep.
End World.
Arguments Geo T : clear implicits.
