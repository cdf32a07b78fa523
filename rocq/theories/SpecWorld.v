(** A space together with its two trees and the geometry of its shapes, over every history of calls and steps. *)
From Coq Require Import NArith Bool List Arith.
From Verif Require Import Num.
From Verif.Model Require Import Vector BB BBTree Shapes Handlers Collision Query Space World.
From Verif Require Import SpecIndex SpecSpace.
Import ListNotations.
Local Open Scope nat_scope.

Section W.
Context {T : Type} {NT : Num T} {TM : Type} {TT : Time TM}.
Variable g0 : Geo T.
Notation e0 := (env_of g0).
(** The trees hold the shapes the space says they hold, and no shape of the static tree has moved since it was put there. *)
Definition in_sync (h : list (op T)) (s : Space TM) (g : Geo T) : Prop :=
  (forall x, In x (members true h) <-> In x (sp_didx s)) /\ (forall x, In x (members false h) <-> In x (sp_sidx s)) /\
  (forall x, In x (sp_sidx s) -> indexed e0 false x h = Some (box_of (g_shape g x))) /\ env_now e0 h = env_of g.
Definition index_call (o : op T) : Prop := match o with OInsert _ _ | ORemove _ _ | OReindexObject _ _ => True | _ => False end.
Definition is_step (o : Op TM) : Prop := match o with Step _ _ _ _ => True | _ => False end.
(** Space.Step: bodies that are awake move ([g']), the dynamic tree is brought up to date and reports pairs, each goes through
    the narrow phase, and those that touch reach the arbiters; the pool hands out unused arbiters. *)
Record stepping (s : Space TM) (h : list (op T)) (g g' : Geo T) (order : list nat) (ids : nat -> nat -> N) (thr : option TM) (hits : list Hit) : Prop := {
  st_valid : valid e0 (OReindexQuery order :: OMove (env_of g') :: h);
  st_still : forall x, In x (sp_sidx s) -> box_of (g_shape g' x) = box_of (g_shape g x);
  st_hits : map (fun k => (h_a k, h_b k)) hits = collide_pairs s g' ids (snd (ix_reindex_query (env_of g') order (run e0 (OMove (env_of g') :: h))));
  st_new : NoDup (map h_new hits) /\ forall k, In k hits -> In (h_new k) (sp_pool s) \/ sp_na s <= h_new k;
  st_none : thr = None -> sp_sleep s = [];
  st_some : forall th, thr = Some th -> tltb t0 th = true }.
(** A call on the space makes some calls on the trees ([l]: which, and in which order, is left open), after which the trees are in sync
    again.  Moving a body or changing a shape between steps must be followed by a reindex if the shape is in the static tree. *)
Inductive world : Space TM -> list (op T) -> Geo T -> Prop :=
| w_new s : started s -> env_ok e0 -> world s [] g0
| w_call s h g o s' l : world s h g -> ~ is_step o -> legal s o -> exec s o = Some s' ->
    Forall index_call l -> valid e0 (l ++ h) -> in_sync (l ++ h) s' g -> world s' (l ++ h) g
| w_move s h g g' l : world s h g -> Forall index_call l -> valid e0 (l ++ OMove (env_of g') :: h) -> in_sync (l ++ OMove (env_of g') :: h) s g' ->
    world s (l ++ OMove (env_of g') :: h) g'
| w_step s h g g' order ids dt mv thr hits s' l : world s h g -> stepping s h g g' order ids thr hits -> exec s (Step dt mv thr hits) = Some s' ->
    let h' := OReindexQuery order :: OMove (env_of g') :: h in
    Forall index_call l -> valid e0 (l ++ h') -> in_sync (l ++ h') s' g' -> world s' (l ++ h') g'.
(** what the narrow phase says about two shapes, whatever hint it is given *)
Definition meet (g : Geo T) (x y : nat) : Prop := forall id, exists sw info, collide (qs_shape (g_shape g x)) (qs_shape (g_shape g y)) id = Some (sw, info) /\ ci_arr info <> [].
Definition miss (g : Geo T) (x y : nat) : Prop := forall id sw info, collide (qs_shape (g_shape g x)) (qs_shape (g_shape g y)) id = Some (sw, info) -> ci_arr info = [].
(** neither filtered, nor joined, nor of the same body *)
Definition may_touch (s : Space TM) (g : Geo T) (x y : nat) : Prop :=
  collides s x y /\ reject (qs_filter (g_shape g x)) (qs_filter (g_shape g y)) = false.
(** both in the space, one of an awake body *)
Definition watched (s : Space TM) (x y : nat) : Prop :=
  ss_in (sp_s s x) = true /\ ss_in (sp_s s y) = true /\ x <> y /\ (~ at_rest s (body_of s x) \/ ~ at_rest s (body_of s y)).
End W.
