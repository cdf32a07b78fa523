(** space.go:676-783, the numbers of [Space.Step]: which bodies, arbiters and constraints take part is an input (the lists
    after collision detection and processComponents: Model/Space.v, Contacts.v, Collision.v), what the step does to their
    velocities, positions and impulses is composed here from Model/Body.v and Model/Solver.v.
    Simplified: default velocity and position functions, no PreSolve/PostSolve hooks, idle times stay as they are
    (they are in Model/Space.v), the two bodies of an arbiter or a constraint are different. *)
From Coq Require Import ZArith Bool List.
From Verif Require Import Num.
From Verif.Model Require Import Vector BB Transform Body Solver.
Import ListNotations.
Local Open Scope num_scope.

Section Step.
Context {T : Type} `{Num T} `{Trig T}.
Notation V := (Vec T).
Notation B := (Body T).

(** bodies by address *)
Definition store := nat -> B.
Definition put (w : store) (i : nat) (b : B) : store := fun k => if Nat.eqb k i then b else w k.
(** an arbiter or constraint between the bodies at two addresses *)
Definition link (X : Type) : Type := nat * nat * X.
(** space.go:15-53: gravity, damping, collisionSlop, collisionBias, Iterations *)
Record Settings := mkSettings { se_gravity : V; se_damping : T; se_slop : T; se_bias : T; se_iter : nat }.
(** the bodies, dynamicBodies, arbiters, constraints and curr_dt of a space *)
Record Scene := mkScene { sc_body : store; sc_dyn : list nat; sc_arbs : list (link (Arb T)); sc_cons : list (link (@Params T * @Joint T)); sc_dt : T }.

(** a loop over bodies *)
Definition each_body (f : B -> B) (l : list nat) (w : store) : store := fold_left (fun w i => put w i (f (w i))) l w.
(** a loop over arbiters or constraints that changes them and their bodies *)
Fixpoint each_link {X} (f : X -> B -> B -> X * B * B) (l : list (link X)) (w : store) : store * list (link X) :=
  match l with
  | [] => (w, [])
  | (i, k, x) :: l => let '(x', a, b) := f x (w i) (w k) in
                      let '(w', l') := each_link f l (put (put w i a) k b) in (w', (i, k, x') :: l')
  end.

(** space.go:722-727 *)
Definition prestep_arb (se : Settings) (dt : T) (arb : Arb T) (a b : B) : Arb T * B * B :=
  (arb_prestep arb dt (se_slop se) (none_ - npow (se_bias se) dt) a b, a, b).
(** space.go:729-735 *)
Definition prestep_con (dt : T) (c : @Params T * @Joint T) (a b : B) : (@Params T * @Joint T) * B * B :=
  let '(p, j) := c in let '(j', a, b) := j_prestep p j dt a b in ((p, j'), a, b).
(** space.go:750-756 *)
Definition cached_arb (k : T) (arb : Arb T) (a b : B) : Arb T * B * B := let '(a, b) := arb_apply_cached arb k a b in (arb, a, b).
Definition cached_con (k : T) (c : @Params T * @Joint T) (a b : B) : (@Params T * @Joint T) * B * B :=
  let '(a, b) := j_cached (snd c) k a b in (c, a, b).
(** space.go:761-767 *)
Definition solve_con (dt : T) (c : @Params T * @Joint T) (a b : B) : (@Params T * @Joint T) * B * B :=
  let '(p, j) := c in let '(j', a, b) := j_apply p j dt a b in ((p, j'), a, b).
(** space.go:760-768 *)
Fixpoint iterate (dt : T) (n : nat) (s : store * list (link (Arb T)) * list (link (@Params T * @Joint T))) : store * list (link (Arb T)) * list (link (@Params T * @Joint T)) :=
  match n with
  | O => s
  | S n => let '(w, arbs, js) := s in
           let '(w, arbs) := each_link arb_apply_impulse arbs w in
           let '(w, js) := each_link (solve_con dt) js w in
           iterate dt n (w, arbs, js)
  end.
(** what collision detection, sleeping and waking leave to the second half of the step: dynamicBodies, arbiters, constraints *)
Record Event := mkEvent { ev_dt : T; ev_dyn : list nat; ev_arbs : list (link (Arb T)); ev_cons : list (link (@Params T * @Joint T)) }.
(** space.go:676-783 *)
Definition step (se : Settings) (sc : Scene) (ev : Event) : Scene :=
  let dt := ev_dt ev in
  if dt =? nzero then sc else
  let w := each_body (fun b => b_update_position b dt) (sc_dyn sc) (sc_body sc) in
  let '(w, arbs) := each_link (prestep_arb se dt) (ev_arbs ev) w in
  let '(w, js) := each_link (prestep_con dt) (ev_cons ev) w in
  let w := each_body (fun b => b_update_velocity b (se_gravity se) (npow (se_damping se) dt) dt) (ev_dyn ev) w in
  let coef := if sc_dt sc =? nzero then nzero else dt / sc_dt sc in
  let '(w, _) := each_link (cached_arb coef) arbs w in
  let '(w, _) := each_link (cached_con coef) js w in
  let '(w, arbs, js) := iterate dt (se_iter se) (w, arbs, js) in
  mkScene w (ev_dyn ev) arbs js dt.
Definition steps (se : Settings) (sc : Scene) (evs : list Event) : Scene := fold_left (step se) evs sc.
End Step.
Arguments Settings : clear implicits. Arguments Scene : clear implicits. Arguments Event : clear implicits.
