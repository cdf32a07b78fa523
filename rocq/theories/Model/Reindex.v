(** space.go:1134-1143 Space.ReindexShape on a space with its two trees. *)
From Coq Require Import Bool List Arith.
From Verif Require Import Num.
From Verif.Model Require Import Vector BB BBTree Shapes Handlers Collision Query.
Import ListNotations.

Section Reindex.
Context {T : Type} `{Num T}.
(** what the queries of a space read: the world data of the shapes, the boxes and velocities the trees read (Shape.bb, Shape.body.v) and the trees *)
Record rspace := mkRS { rs_shapes : nat -> QShape T; rs_env : env T; rs_index : index T }.
(** shape.go:167-169 with 171-174: the class recomputes the world data of the shape and its box from the body's transform; [fresh] is the outcome (see Shapes.v: circle_cache, seg_cache, poly_cache) *)
Definition cache_bb (fresh : nat -> QShape T) (s : rspace) (id : nat) : rspace :=
  mkRS (fun i => if Nat.eqb i id then fresh id else rs_shapes s i)
       (mkEnv (fun i => if Nat.eqb i id then box_of (fresh id) else cur (rs_env s) i) (vel (rs_env s))) (rs_index s).
(** space.go:1134-1143; the shape is in at most one of the trees, the other finds nothing *)
Definition reindex_shape (fresh : nat -> QShape T) (s : rspace) (id : nat) : rspace :=
  let s := cache_bb fresh s id in
  mkRS (rs_shapes s) (rs_env s) (ix_reindex_object false (rs_env s) (ix_reindex_object true (rs_env s) (rs_index s) id) id).
End Reindex.
Arguments rspace : clear implicits.
