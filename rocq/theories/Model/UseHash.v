(** space.go: a space whose two indexes are spatial hashes (UseSpatialHash), and the queries of such a space. *)
From Coq Require Import ZArith NArith Bool List Arith.
From Verif Require Import Num.
From Verif.Model Require Import Vector BB BBTree Shapes Handlers Collision Query SpaceHash.
Import ListNotations.
Local Open Scope num_scope.

Section UseHash.
Context {T : Type} `{Num T}.
(** the two indexes: Space.staticShapes and Space.dynamicShapes *)
Record hindex := mkHX { hx_sta : hash T; hx_dyn : hash T }.
(** space.go:885-887, 888-890: the shapes in the order in which Each of the tree visits them, each with the handle the pool of the new hash gives out *)
Definition fill (dim : T) (n : nat) (box : nat -> BB T) (l : list (nat * nat)) : hash T :=
  fold_left (fun s og => sh_insert s (fst og) (snd og) (box (fst og))) l (new_hash dim n).
(** space.go:881-894 *)
Definition use_spatial_hash (dim : T) (n : nat) (box : nat -> BB T) (static dynamic : list (nat * nat)) : hindex :=
  mkHX (fill dim n box static) (fill dim n box dynamic).
Variable W : nat -> QShape T.
Variable ix : hindex.
(** space.go:951-973; the context is no shape, so that no handle is skipped *)
Definition point_query_nearest_h (p : Vec T) (maxd : T) (f : Filter) : option nat * PointInfo T :=
  let q := bb_circle p (nmax maxd nzero) in
  fold_left (nearest_step W p f) (snd (sh_query (hx_dyn ix) None q) ++ snd (sh_query (hx_sta ix) None q)) (None, mkPI vzero maxd vzero).
(** space.go:983-999 *)
Definition bb_query_h (q : BB T) (f : Filter) : list nat :=
  filter (fun id => negb (reject (qs_filter (W id)) f) && bb_intersects (box_of (W id)) q) (snd (sh_query (hx_sta ix) None q) ++ snd (sh_query (hx_dyn ix) None q)).
(** spacehash.go:167-203 with its last line: the pairs the collision function is called with in a step; [order]: the dynamic shapes in the order of the handle set *)
Definition step_pairs_h (order : list nat) : list (nat * nat) :=
  snd (sh_reindex_query (fun id => box_of (W id)) order (hx_dyn ix)) ++ snd (sh_collide_static (fun id => box_of (W id)) order (hx_sta ix)).
End UseHash.
Arguments hindex : clear implicits.
