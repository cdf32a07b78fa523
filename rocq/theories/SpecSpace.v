(** What the callbacks of one pair of shapes may look like (independent of the model's proofs). *)
From Coq Require Import List Bool Arith.
From Verif.Model Require Import Space.
Import ListNotations.

(** A pair is apart, touching, or touching with the contact refused (begin said no, or the arbiter was ignored).
    While it touches, every step calls preSolve at most once, then postSolve at most once, and only if preSolve has not said no. *)
Inductive Progress := Fresh | Solved | Dropped | Posted.
Inductive Contact := Apart | Touching (p : Progress) | Refused.
Definition same_pair (a b x y : nat) : bool := (Nat.eqb a x && Nat.eqb b y) || (Nat.eqb a y && Nat.eqb b x).
Definition accept (a b : nat) (c : Contact) (e : Ev) : option Contact :=
  match e with
  | EStep => Some (match c with Touching _ => Touching Fresh | _ => c end)
  | EBegin x y ok => if same_pair a b x y then match c with Apart => Some (if ok then Touching Fresh else Refused) | _ => None end else Some c
  | EPre x y ok ign => if same_pair a b x y then match c with Touching Fresh => Some (if ign then Refused else Touching (if ok then Solved else Dropped)) | _ => None end else Some c
  | EPost x y => if same_pair a b x y then match c with Touching Fresh | Touching Solved => Some (Touching Posted) | _ => None end else Some c
  | ESep x y => if same_pair a b x y then match c with Touching _ | Refused => Some Apart | Apart => None end else Some c
  end.
(** the state of the pair after a trace; [None]: the trace breaks the protocol *)
Definition contact (log : list Ev) (a b : nat) : option Contact :=
  fold_left (fun c e => match c with Some c => accept a b c e | None => None end) log (Some Apart).

(** ** Histories of calls *)
Section Histories.
Context {T : Type} `{Time T}.
Implicit Types (s : Space T) (b c x : nat).
Definition in_space s b : Prop := sb_in (sp_b s b) = true.
Definition asleep s b : Prop := sb_root (sp_b s b) <> None.
Definition body_of s x : nat := ss_body (sp_s s x).
(** a body of the space, or its static body *)
Definition usable s b : Prop := in_space s b \/ b = sp_sb s.
(** The narrow phase reports pairs of shapes of the space, at least one of a body that moves, no pair twice; the arbiters it is
    given are unused.  Sleeping is not switched off while bodies sleep, and the threshold is positive. *)
Record can_step s (thr : option T) (hits : list Hit) : Prop := {
  so_hit : forall h, In h hits -> ss_in (sp_s s (h_a h)) = true /\ ss_in (sp_s s (h_b h)) = true /\ (In (h_a h) (sp_didx s) \/ In (h_b h) (sp_didx s)) /\ (In (h_new h) (sp_pool s) \/ sp_na s <= h_new h);
  so_new : NoDup (map h_new hits);
  so_pairs : ForallOrdPairs (fun h h' => same_pair (h_a h) (h_b h) (h_a h') (h_b h') = false) hits;
  so_none : thr = None -> sp_sleep s = [];
  so_some : forall th, thr = Some th -> tltb t0 th = true }.
Inductive Op :=
| AddBody (b : nat) | RemoveBody (b : nat) | AddShape (x : nat) | RemoveShape (x : nat) | AddConstraint (c : nat) | RemoveConstraint (c : nat)
| SetType (b : nat) (k : Kind) | Activate (b : nat) | ActivateStatic (b : nat) (f : option nat) | SetGravity
| Step (dt : T) (moving : nat -> bool) (thr : option T) (hits : list Hit)
| SetSensor (x : nat) (v : bool) | SetCollideBodies (c : nat) (v : bool).
Definition exec s (o : Op) : option (Space T) :=
  match o with
  | AddBody b => add_body s b | RemoveBody b => remove_body s b | AddShape x => add_shape s x | RemoveShape x => remove_shape s x
  | AddConstraint c => add_con s c | RemoveConstraint c => remove_con s c | SetType b k => set_type s b k
  | Activate b => activate s b | ActivateStatic b f => activate_static s b f | SetGravity => set_gravity s
  | Step dt mv thr hits => step s dt mv thr hits
  | SetSensor x v => set_sensor s x v | SetCollideBodies c v => set_collide s c v
  end.
(** what the caller must respect: nothing is added twice or removed when absent, a shape's or constraint's bodies are there, a body
    leaves after its shapes and constraints, SetType is for a body that is awake and, if static, has no sleeping neighbour *)
Definition legal s (o : Op) : Prop :=
  match o with
  | AddBody b => ~ in_space s b /\ b <> sp_sb s
  | RemoveBody b => in_space s b /\ (forall x, ss_in (sp_s s x) = true -> body_of s x <> b) /\ (forall c, sc_in (sp_c s c) = true -> sc_a (sp_c s c) <> b /\ sc_b (sp_c s c) <> b)
  | AddShape x => ss_in (sp_s s x) = false /\ usable s (body_of s x)
  | RemoveShape x => ss_in (sp_s s x) = true
  | AddConstraint c => sc_in (sp_c s c) = false /\ sc_a (sp_c s c) <> sc_b (sp_c s c) /\ usable s (sc_a (sp_c s c)) /\ usable s (sc_b (sp_c s c))
  | RemoveConstraint c => sc_in (sp_c s c) = true
  | SetType b k => in_space s b /\ sb_root (sp_b s b) = None /\
      (kind s b = Stat -> (forall x, In x (sb_arbs (sp_b s b)) -> sb_root (sp_b s (arb_other s b x)) = None) /\ (forall c, In c (sb_cons (sp_b s b)) -> sb_root (sp_b s (con_other s b c)) = None))
  | Activate _ | ActivateStatic _ _ | SetGravity | SetSensor _ _ | SetCollideBodies _ _ => True
  | Step dt mv thr hits => can_step s thr hits
  end.
Inductive reach s0 : Space T -> Prop :=
| reach_0 : reach s0 s0
| reach_S s o s' : reach s0 s -> legal s o -> exec s o = Some s' -> reach s0 s'.
(** a new space, whatever bodies, shapes and constraints the program will create *)
Definition started s : Prop := exists kinds shapes cons sb, kinds sb = Stat /\ s = space_init kinds shapes cons sb.
Definition reachable s : Prop := exists s0, started s0 /\ reach s0 s.
(** dynamic bodies joined by an arbiter or a constraint in both their lists, in any number of steps *)
Definition joined s b o : Prop :=
  kind s b = Dyn /\ kind s o = Dyn /\
  ((exists x, In x (sb_arbs (sp_b s b)) /\ In x (sb_arbs (sp_b s o)) /\ b <> o) \/
   (exists c, sc_in (sp_c s c) = true /\ ((sc_a (sp_c s c) = b /\ sc_b (sp_c s c) = o) \/ (sc_a (sp_c s c) = o /\ sc_b (sp_c s c) = b)))).
Inductive linked s : nat -> nat -> Prop :=
| linked_0 b : linked s b b
| linked_S b o p : linked s b o -> joined s o p -> linked s b p.
(** a pair of touching shapes that is not filtered out: their bodies differ, and no constraint between them forbids collisions *)
Definition collides s x y : Prop :=
  body_of s x <> body_of s y /\
  forall c, sc_in (sp_c s c) = true -> sc_collide (sp_c s c) = false ->
    ~ ((sc_a (sp_c s c) = body_of s x /\ sc_b (sp_c s c) = body_of s y) \/ (sc_a (sp_c s c) = body_of s y /\ sc_b (sp_c s c) = body_of s x)).
Definition at_rest s b : Prop := kind s b = Stat \/ asleep s b.
(** what a history (newest call first) has added and not removed since *)
Inductive happened s0 : list Op -> Space T -> Prop :=
| happened_0 : happened s0 [] s0
| happened_S h s o s' : happened s0 h s -> legal s o -> exec s o = Some s' -> happened s0 (o :: h) s'.
Fixpoint bodies_of (h : list Op) : list nat :=
  match h with [] => [] | AddBody b :: h => b :: bodies_of h | RemoveBody b :: h => remove Nat.eq_dec b (bodies_of h) | _ :: h => bodies_of h end.
Fixpoint shapes_of (h : list Op) : list nat :=
  match h with [] => [] | AddShape x :: h => x :: shapes_of h | RemoveShape x :: h => remove Nat.eq_dec x (shapes_of h) | _ :: h => shapes_of h end.
Fixpoint constraints_of (h : list Op) : list nat :=
  match h with [] => [] | AddConstraint c :: h => c :: constraints_of h | RemoveConstraint c :: h => remove Nat.eq_dec c (constraints_of h) | _ :: h => constraints_of h end.
End Histories.
Arguments Op : clear implicits.
