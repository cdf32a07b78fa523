(** Vocabulary for whole steps (C112-C116). *)
From Coq Require Import Reals List.
From Verif Require Import Num Spec SpecBody SpecSolver.
From Verif.Model Require Import Vector BB Transform Body Solver Step.
Import ListNotations.

(** Two different bodies, both in the group or both outside it. *)
Definition closed {X} (ids : list nat) (l : list (link X)) : Prop := forall i k x, In (i, k, x) l -> i <> k /\ (In i ids <-> In k ids).
(** No arbiter or constraint of the step connects the group with the rest. *)
Definition isolated {T} `{Num T} (ids : list nat) (ev : Event T) : Prop := closed ids (ev_arbs ev) /\ closed ids (ev_cons ev).

(** ** Islands: two spaces look the same to a group of bodies *)
(** the arbiters (or constraints) of the group, in order *)
Definition of_group {X} (ids : list nat) (l : list (link X)) : list (link X) := filter (fun '(i, _, _) => if in_dec Nat.eq_dec i ids then true else false) l.
Definition same_bodies (ids l l' : list nat) : Prop := NoDup l /\ NoDup l' /\ forall i, In i ids -> (In i l <-> In i l').
Definition same_scene {T} `{Num T} (ids : list nat) (s s' : Scene T) : Prop :=
  (forall i, In i ids -> sc_body s i = sc_body s' i) /\ same_bodies ids (sc_dyn s) (sc_dyn s') /\ sc_dt s = sc_dt s'.
Definition same_event {T} `{Num T} (ids : list nat) (e e' : Event T) : Prop :=
  ev_dt e = ev_dt e' /\ same_bodies ids (ev_dyn e) (ev_dyn e') /\
  of_group ids (ev_arbs e) = of_group ids (ev_arbs e') /\ of_group ids (ev_cons e) = of_group ids (ev_cons e').

(** ** Islands that share bodies which cannot move (the ground, platforms) *)
(** Different bodies; what a body of the group touches is in the group or belongs to the ground. *)
Definition rests_on {X} (ids gr : list nat) (l : list (link X)) : Prop :=
  forall i k x, In (i, k, x) l -> i <> k /\ (In i ids -> In k ids \/ In k gr) /\ (In k ids -> In i ids \/ In i gr).
(** the arbiters (or constraints) with a body of the group *)
Definition of_island {X} (ids : list nat) (l : list (link X)) : list (link X) :=
  filter (fun '(i, k, _) => if in_dec Nat.eq_dec i ids then true else if in_dec Nat.eq_dec k ids then true else false) l.
Definition island (ids gr : list nat) (ev : Event R) : Prop := rests_on ids gr (ev_arbs ev) /\ rests_on ids gr (ev_cons ev).
Definition same_island (ids gr : list nat) (e e' : Event R) : Prop :=
  ev_dt e = ev_dt e' /\ same_bodies (ids ++ gr) (ev_dyn e) (ev_dyn e') /\
  of_island ids (ev_arbs e) = of_island ids (ev_arbs e') /\ of_island ids (ev_cons e) = of_island ids (ev_cons e').
Definition grounded (gr : list nat) (s : Scene R) : Prop := forall i, In i gr -> immovable (sc_body s i).

(** ** Mechanics *)
Local Open Scope R_scope.
Definition mass_of (w : world) (ids : list nat) : R := fold_right (fun i s => b_m (w i) + s) 0 ids.
(** sums of mass times position, mass times bias velocity, and of the forces *)
Definition moment_of_mass (w : world) (ids : list nat) : RV := fold_right (fun i s => vplus (vscale (b_m (w i)) (b_p (w i))) s) (mkV 0 0) ids.
Definition bias_momentum (w : world) (ids : list nat) : RV := fold_right (fun i s => vplus (vscale (b_m (w i)) (b_vbias (w i))) s) (mkV 0 0) ids.
Definition force_on (w : world) (ids : list nat) : RV := fold_right (fun i s => vplus (b_f (w i)) s) (mkV 0 0) ids.
(** different dynamic bodies of finite mass *)
Definition group (w : world) (ids : list nat) : Prop := NoDup ids /\ forall i, In i ids -> finite_mass (w i) /\ b_type (w i) = DYNAMIC.
(** they are among the bodies the space moves *)
Definition moved (ids dyn : list nat) : Prop := NoDup dyn /\ incl ids dyn.
(** a single particle of mass M, its momentum and M times its position: one step *)
Definition particle (se : Settings R) (M : R) (s : RV * RV) (dt : R) : RV * RV :=
  let '(P, C) := s in (vplus (vscale (npow (se_damping se) dt) P) (vscale (M * dt) (se_gravity se)), vplus C (vscale dt P)).

(** ** Rest *)
(** an impulse [J] on body [k] at the offset [r2] from its centre of gravity, and [-J] on body [i] at [r1] *)
Definition push : Type := nat * nat * RV * RV * RV.
Definition impulse_on (l : list push) (b : nat) : RV :=
  fold_right (fun '(i, k, _, _, J) s => vplus (if Nat.eqb b k then J else if Nat.eqb b i then vscale (-1) J else mkV 0 0) s) (mkV 0 0) l.
Definition twist_on (l : list push) (b : nat) : R :=
  fold_right (fun '(i, k, r1, r2, J) s => (if Nat.eqb b k then crossR r2 J else if Nat.eqb b i then - crossR r1 J else 0) + s) 0 l.
(** the impulse a contact has accumulated: jn along the normal, jt across it *)
Definition contact_pushes (arbs : list (link (Arb R))) : list push :=
  flat_map (fun '(i, k, arb) => map (fun c => (i, k, c_r1 c, c_r2 c, vplus (vscale (c_jnAcc c) (ar_n arb)) (vscale (c_jtAcc c) (turn (PI / 2) (ar_n arb))))) (ar_contacts arb)) arbs.
(** where an anchor given in body coordinates is, relative to the centre of gravity *)
Definition arm (b : Body R) (anchor : RV) : RV := turn (b_a b) (vminus anchor (b_cog b)).
Definition pivot_pushes (w : world) (js : list (link (@Params R * @Joint R))) : list push :=
  flat_map (fun '(i, k, (_, j)) => match j with JPivot q => [(i, k, arm (w i) (piv_A q), arm (w k) (piv_B q), piv_jAcc q)] | _ => [] end) js.
(** a contact that lasts and holds: it only pushes, its friction is within the cone, it is not deeper than the slop, no conveyor *)
Definition holding_contact (slop : R) (w : world) (t : link (Arb R)) : Prop :=
  let '(i, k, arb) := t in i <> k /\ ar_state arb <> FirstCollision /\ ar_surf arb = mkV 0 0 /\
  Forall (fun c => 0 <= c_jnAcc c /\ Rabs (c_jtAcc c) <= ar_u arb * c_jnAcc c /\
                   - slop <= inner (vminus (vplus (b_p (w k)) (c_r2 c)) (vplus (b_p (w i)) (c_r1 c))) (ar_n arb)) (ar_contacts arb).
(** a pivot joint whose anchors meet and whose impulse is within maxForce *)
Definition holding_joint (dt : R) (w : world) (t : link (@Params R * @Joint R)) : Prop :=
  let '(i, k, (p, j)) := t in i <> k /\
  match j with JPivot q => vplus (b_p (w i)) (arm (w i) (piv_A q)) = vplus (b_p (w k)) (arm (w k) (piv_B q)) /\ norm (piv_jAcc q) <= maxForce p * dt /\ 0 <= maxBias p | _ => False end.
Definition still (b : Body R) : Prop := b_v b = mkV 0 0 /\ b_w b = 0 /\ b_vbias b = mkV 0 0 /\ b_wbias b = 0.
(** the transform of the body is that of its position and angle (C07: always) *)
Definition oriented (b : Body R) : Prop := forall v, t_vect (b_tr b) v = turn (b_a b) v.
(** everything is at rest, and scaled by [coef] the impulses carry the weights for a time [dt] *)
Definition at_rest (se : Settings R) (dt coef : R) (w : world) (dyn : list nat) (arbs : list (link (Arb R))) (js : list (link (@Params R * @Joint R))) : Prop :=
  NoDup dyn /\ (forall i, still (w i) /\ oriented (w i)) /\
  (forall i, In i dyn -> finite_mass (w i) /\ b_type (w i) = DYNAMIC /\ b_f (w i) = mkV 0 0 /\ b_t (w i) = 0) /\
  (forall i, ~ In i dyn -> immovable (w i)) /\
  Forall (holding_contact (se_slop se) w) arbs /\ Forall (holding_joint dt w) js /\
  let P := contact_pushes arbs ++ pivot_pushes w js in
  forall i, In i dyn -> vplus (vscale (b_m (w i) * dt) (se_gravity se)) (vscale coef (impulse_on P i)) = mkV 0 0 /\ coef * twist_on P i = 0.
(** same place, same velocities *)
Definition unmoved (b b' : Body R) : Prop := b_p b' = b_p b /\ b_a b' = b_a b /\ still b'.
Definition accumulated (t : link (Arb R)) : list (R * R) := map (fun c => (c_jnAcc c, c_jtAcc c)) (ar_contacts (snd t)).
