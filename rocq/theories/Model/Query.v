(** space.go: the queries of a Space, on top of the two bounding-box trees (Model/BBTree.v), the shape queries (Model/Shapes.v) and the narrow phase (Model/Collision.v).
    A query's result is the answer it returns together with the list of the calls of the user's callback, in order.  The callback does not change the space (it is locked). *)
From Coq Require Import ZArith NArith Bool List Arith.
From Verif Require Import Num.
From Verif.Model Require Import Vector BB BBTree Shapes Handlers Collision.
Import ListNotations.
Local Open Scope num_scope.

Section Query.
Context {T : Type} `{Num T}.
Notation V := (Vec T).

(** the parts of a Shape the queries read *)
Record QShape := mkQS { qs_shape : CShape T; qs_sensor : bool; qs_filter : Filter }.
Definition class_of (s : QShape) : Shape T := cs_class (qs_shape s).
Definition box_of (s : QShape) : BB T := cs_bb (qs_shape s).
(** the shapes of the space by number (the leaves of the trees hold the numbers) *)
Variable W : nat -> QShape.
Variable ix : index T.

(** space.go:951-979.  PointQueryInfo with its Shape pointer. *)
Definition nearest_step (p : V) (f : Filter) (out : option nat * PointInfo T) (id : nat) : option nat * PointInfo T :=
  if negb (reject (qs_filter (W id)) f) && negb (qs_sensor (W id)) then
    let info := point_query (class_of (W id)) p in
    if pi_dist info <? pi_dist (snd out) then (Some id, info) else out
  else out.
(** space.go:951-961 *)
Definition point_query_nearest (p : V) (maxd : T) (f : Filter) : option nat * PointInfo T :=
  let q := bb_circle p (nmax maxd nzero) in
  fold_left (nearest_step p f) (ix_query (dyn ix) q ++ ix_query (sta ix) q) (None, mkPI vzero maxd vzero).

(** space.go:985-1006: the shapes the callback is called with *)
Definition bb_query (q : BB T) (f : Filter) : list nat :=
  filter (fun id => negb (reject (qs_filter (W id)) f) && bb_intersects (box_of (W id)) q) (ix_query (sta ix) q ++ ix_query (dyn ix) q).

(** space.go:1024-1034, 1053-1061: the calls of the callback *)
Definition segment_step (a b : V) (r : T) (f : Filter) (out : list (nat * SegInfo T)) (id : nat) : list (nat * SegInfo T) * T :=
  (if negb (reject (qs_filter (W id)) f) then
     let info := segment_query (class_of (W id)) a b r in
     if si_hit info then out ++ [(id, info)] else out
   else out, none_).
Definition segment_query_all (a b : V) (r : T) (f : Filter) : list (nat * SegInfo T) :=
  ix_segment_query (segment_step a b r f) (dyn ix) a b (ix_segment_query (segment_step a b r f) (sta ix) a b [] none_) none_.

(** space.go:1036-1050 *)
Definition first_step (a b : V) (r : T) (f : Filter) (out : option nat * SegInfo T) (id : nat) : (option nat * SegInfo T) * T :=
  let out' :=
    if negb (reject (qs_filter (W id)) f) && negb (qs_sensor (W id)) then
      let info := segment_query (class_of (W id)) a b r in
      if si_hit info && (si_alpha info <? si_alpha (snd out)) then (Some id, info) else out
    else out in
  (out', si_alpha (snd out')).
(** space.go:1063-1069 *)
Definition segment_query_first (a b : V) (r : T) (f : Filter) : option nat * SegInfo T :=
  let out := ix_segment_query (first_step a b r f) (sta ix) a b (None, mkSI false b vzero none_) none_ in
  ix_segment_query (first_step a b r f) (dyn ix) a b out (si_alpha (snd out)).

(** space.go:1094-1131.  [self]: the number of the shape if it is in the space.  [None]: the narrow phase ran into an endless recursion (it never does: C40). *)
Definition shape_step (self : option nat) (a : QShape) (st : option (list (nat * list (CPt T)) * bool)) (id : nat) : option (list (nat * list (CPt T)) * bool) :=
  match st with
  | None => None
  | Some (calls, any) =>
    if reject (qs_filter a) (qs_filter (W id)) || match self with Some i => Nat.eqb i id | None => false end then st
    else match shapes_collide (qs_shape a) (qs_shape (W id)) with
         | None => None
         | Some (_, []) => st
         | Some (_, pts) => Some (calls ++ [(id, pts)], negb (qs_sensor a || qs_sensor (W id)))
         end
  end.
Definition shape_query (self : option nat) (a : QShape) : option (list (nat * list (CPt T)) * bool) :=
  fold_left (shape_step self a) (ix_query (dyn ix) (box_of a) ++ ix_query (sta ix) (box_of a)) (Some ([], false)).
End Query.
Arguments QShape : clear implicits.
