(** Vocabulary for the solver properties (C34-C38, C55, C59, C60). *)
From Coq Require Import Reals ZArith Bool List Lra.
From Verif Require Import Num Spec.
From Verif.Model Require Import Vector BB Transform Body Solver.
Import ListNotations.
Local Open Scope R_scope.

(** ** Contacts: admissible impulses.  [le] is the order of the arithmetic at hand. *)
Definition admissible {T} `{Num T} (friction : T) (c : Contact T) : Prop :=
  nleb nzero (c_jnAcc c) = true /\ nleb nzero (c_jBias c) = true /\
  nleb (nneg (nmul friction (c_jnAcc c))) (c_jtAcc c) = true /\ nleb (c_jtAcc c) (nmul friction (c_jnAcc c)) = true.

(** [k] solver iterations of one arbiter; between two iterations the rest of the world may do anything
    to the two bodies, so each iteration starts from its own pair of bodies. *)
Fixpoint arb_iterations {T} `{Num T} (arb : Arb T) (worlds : list (Body T * Body T)) : Arb T :=
  match worlds with
  | [] => arb
  | (a, b) :: w => let '(arb', _, _) := arb_apply_impulse arb a b in arb_iterations arb' w
  end.
(** the same for a joint *)
Fixpoint joint_iterations {T} `{Num T} (p : Params) (dt : T) (j : Joint) (worlds : list (Body T * Body T)) : Joint :=
  match worlds with
  | [] => j
  | (a, b) :: w => let '(j', _, _) := j_apply p j dt a b in joint_iterations p dt j' w
  end.
(** one simulation step of a joint: PreStep, then the iterations *)
Definition joint_step {T} `{Num T} `{Trig T} (p : Params) (dt : T) (j : Joint) (a b : Body T) (worlds : list (Body T * Body T)) : Joint :=
  let '(j', _, _) := j_prestep p j dt a b in joint_iterations p dt j' worlds.

(** ** Mechanics *)
(** the body [b'] is [b] after an impulse [J] and an angular impulse [tau]; nothing else changed *)
Definition kicked (b b' : Body R) (J : RV) (tau : R) : Prop :=
  b' = upd_vel b (mkV (vx (b_v b) + vx J * b_minv b) (vy (b_v b) + vy J * b_minv b)) (b_w b + b_iinv b * tau).
Definition crossR (u v : RV) : R := vx u * vy v - vy u * vx v.
(** a body with finite positive mass and moment, consistent inverses *)
Definition finite_mass (b : Body R) : Prop :=
  0 < b_m b /\ 0 < b_i b /\ b_minv b = / b_m b /\ b_iinv b = / b_i b.
(** a body the solver must not move: static, kinematic, or of infinite mass *)
Definition immovable (b : Body R) : Prop := b_minv b = 0 /\ b_iinv b = 0.

(** A world of bodies and the actions of the solver on it.  Every action carries the current data of the
    arbiter or joint, whatever it is, and the indices of its two bodies. *)
Inductive action :=
| Contact_iteration (arb : Arb R) | Contact_cached (arb : Arb R) (dt_coef : R)
| Joint_prestep (p : @Params R) (j : @Joint R) (dt : R) | Joint_cached (j : @Joint R) (dt_coef : R)
| Joint_iteration (p : @Params R) (j : @Joint R) (dt : R).
Definition act (x : action) (a b : Body R) : Body R * Body R :=
  match x with
  | Contact_iteration arb => let '(_, a, b) := arb_apply_impulse arb a b in (a, b)
  | Contact_cached arb k => arb_apply_cached arb k a b
  | Joint_prestep p j dt => let '(_, a, b) := j_prestep p j dt a b in (a, b)
  | Joint_cached j k => j_cached j k a b
  | Joint_iteration p j dt => let '(_, a, b) := j_apply p j dt a b in (a, b)
  end.
Definition world := nat -> Body R.
Definition set_body (w : world) (i : nat) (b : Body R) : world := fun k => if Nat.eqb k i then b else w k.
Definition act_on (w : world) (t : nat * nat * action) : world :=
  let '(i, k, x) := t in let '(a, b) := act x (w i) (w k) in set_body (set_body w i a) k b.
Definition acts (w : world) (l : list (nat * nat * action)) : world := fold_left act_on l w.

(** total linear momentum of the bodies listed *)
Fixpoint momentum (w : world) (ids : list nat) : RV :=
  match ids with [] => mkV 0 0 | i :: t => vplus (vscale (b_m (w i)) (b_v (w i))) (momentum w t) end.
(** total angular momentum about the world origin *)
Fixpoint angular_momentum (w : world) (ids : list nat) : R :=
  match ids with
  | [] => 0
  | i :: t => b_i (w i) * b_w (w i) + b_m (w i) * crossR (b_p (w i)) (b_v (w i)) + angular_momentum w t
  end.
(** the points where an action pushes on the two bodies coincide, or are offset along the push direction [n] *)
Definition same_point (a b : Body R) (r1 r2 : RV) : Prop := vplus (b_p a) r1 = vplus (b_p b) r2.
Definition in_line (a b : Body R) (r1 r2 n : RV) : Prop := crossR (vminus (vplus (b_p b) r2) (vplus (b_p a) r1)) n = 0.
(** The action pushes the two bodies along one common line.  (Pin, slide and spring joints always do,
    see C38_linear_joints_in_line.)  A gear with a ratio other than 1 does not conserve angular momentum, nor should it. *)
Definition central (a b : Body R) (x : action) : Prop :=
  match x with
  | Contact_iteration arb => Forall (fun c => same_point a b (c_r1 c) (c_r2 c)) (ar_contacts arb)
  | Contact_cached arb _ => Forall (fun c => same_point a b (c_r1 c) (c_r2 c)) (ar_contacts arb)
  | Joint_prestep _ j _ => True
  | Joint_cached j _ | Joint_iteration _ j _ =>
    match j with
    | JPin j => in_line a b (pin_r1 j) (pin_r2 j) (pin_n j) | JPivot j => same_point a b (piv_r1 j) (piv_r2 j)
    | JSlide j => in_line a b (sl_r1 j) (sl_r2 j) (sl_n j) | JGroove j => same_point a b (gr_r1 j) (gr_r2 j)
    | JSpring j => in_line a b (sp_r1 j) (sp_r2 j) (sp_n j)
    | JGear j => ge_ratio_inv j = 1
    | JRatchet _ | JRotary _ | JMotor _ | JRSpring _ => True
    end
  end.

(** ** Joints *)
(** the eight joints whose impulse is limited by maxForce (springs are limited by their own law) *)
Definition is_spring {T} `{Num T} (j : @Joint T) : bool := match j with JSpring _ | JRSpring _ => true | _ => false end.
(** world position of the two anchors of a joint with anchors *)
Definition anchor_gap (a b : Body R) (A B : RV) : RV :=
  vminus (vplus (b_p b) (t_vect (b_tr b) (vminus B (b_cog b)))) (vplus (b_p a) (t_vect (b_tr a) (vminus A (b_cog a)))).
(** Sane inputs for C37: a ratchet has non-zero teeth, and the two anchors of a slide joint with a positive
    minimum do not coincide (there the joint has no direction to act along and is skipped). *)
Definition sane_joint (j : @Joint R) (a b : Body R) : Prop :=
  match j with
  | JRatchet j => ra_ratchet j <> 0
  | JSlide j => norm (anchor_gap a b (sl_A j) (sl_B j)) < sl_min j -> anchor_gap a b (sl_A j) (sl_B j) <> mkV 0 0
  | _ => True
  end.
(** the mechanical effect of one impulse of a joint: opposite impulses at the two anchors, or opposite torques *)
Definition opposite_push (a b a' b' : Body R) : Prop :=
  exists r1 r2 J, kicked a a' (vscale (-1) J) (crossR r1 (vscale (-1) J)) /\ kicked b b' J (crossR r2 J).
Definition opposite_torque (a b a' b' : Body R) (k : R) : Prop :=
  exists tau, kicked a a' (mkV 0 0) (- (tau * k)) /\ kicked b b' (mkV 0 0) tau.

(** the velocity of the point of [b] at offset [r] from its centre of gravity *)
Definition point_velocity (b : Body R) (r : RV) : RV := mkV (vx (b_v b) - b_w b * vy r) (vy (b_v b) + b_w b * vx r).
Definition bias_point_velocity (b : Body R) (r : RV) : RV := mkV (vx (b_vbias b) - b_wbias b * vy r) (vy (b_vbias b) + b_wbias b * vx r).
Definition closing (a b : Body R) (r1 r2 : RV) : RV := vminus (point_velocity b r2) (point_velocity a r1).
Definition bias_closing (a b : Body R) (r1 r2 : RV) : RV := vminus (bias_point_velocity b r2) (bias_point_velocity a r1).
(** inverse effective mass along [n], and the coupling between the two directions of a contact *)
Definition eff (a b : Body R) (r1 r2 n : RV) : R :=
  norm2 n * (b_minv a + b_minv b) + b_iinv a * (crossR r1 n) ^ 2 + b_iinv b * (crossR r2 n) ^ 2.
Definition coupling (a b : Body R) (r1 r2 n : RV) : R :=
  b_iinv a * crossR r1 n * crossR r1 (mkV (- vy n) (vx n)) + b_iinv b * crossR r2 n * crossR r2 (mkV (- vy n) (vx n)).
(** what a joint's accumulator says it has done to its second body: impulse and angular impulse *)
Definition pushed (j : @Joint R) : RV * R :=
  match j with
  | JPin j => let J := vscale (pin_jnAcc j) (pin_n j) in (J, crossR (pin_r2 j) J)
  | JPivot j => (piv_jAcc j, crossR (piv_r2 j) (piv_jAcc j))
  | JSlide j => let J := vscale (sl_jnAcc j) (sl_n j) in (J, crossR (sl_r2 j) J)
  | JGroove j => (gr_jAcc j, crossR (gr_r2 j) (gr_jAcc j))
  | JGear j => (mkV 0 0, ge_jAcc j) | JRatchet j => (mkV 0 0, ra_jAcc j) | JRotary j => (mkV 0 0, ro_jAcc j)
  | JMotor j => (mkV 0 0, mo_jAcc j)
  | JSpring j => let J := vscale (sp_jAcc j) (sp_n j) in (J, crossR (sp_r2 j) J)
  | JRSpring j => (mkV 0 0, rs_jAcc j)
  end.
(** [k] iterations of a joint on its own pair of bodies *)
Fixpoint joint_loop (p : @Params R) (dt : R) (k : nat) (s : @Joint R * Body R * Body R) : @Joint R * Body R * Body R :=
  match k with O => s | S k => let '(j, a, b) := s in joint_loop p dt k (j_apply p j dt a b) end.
Fixpoint arb_loop (k : nat) (s : Arb R * Body R * Body R) : Arb R * Body R * Body R :=
  match k with O => s | S k => let '(arb, a, b) := s in arb_loop k (arb_apply_impulse arb a b) end.
(** the relative angle of two bodies and their relative angular velocity *)
Definition rel_angle (a b : Body R) : R := b_a b - b_a a.
Definition rel_spin (a b : Body R) : R := b_w b - b_w a.

(** the solver left the body's velocities alone *)
Definition unmoved (a a' : Body R) : Prop := b_v a' = b_v a /\ b_w a' = b_w a /\ b_vbias a' = b_vbias a /\ b_wbias a' = b_wbias a.
(** distinct bodies of finite mass *)
Definition world_ok (w : world) (ids : list nat) : Prop := NoDup ids /\ forall i, In i ids -> finite_mass (w i).
(** an action between two distinct listed bodies *)
Definition act_ok (ids : list nat) (t : nat * nat * action) : Prop := let '(i, k, _) := t in i <> k /\ In i ids /\ In k ids.
(** every action central at the moment it happens; actions never move bodies, so this is about positions only *)
Fixpoint all_central (w : world) (l : list (nat * nat * action)) : Prop :=
  match l with [] => True | (i, k, x) :: l => central (w i) (w k) x /\ all_central (act_on w (i, k, x)) l end.
Definition linear_joint (j : @Joint R) : bool := match j with JPin _ | JPivot _ | JSlide _ | JGroove _ | JSpring _ => true | _ => false end.
Definition gear_factor (j : @Joint R) : R := match j with JGear j => ge_ratio_inv j | _ => 1 end.
(** Newton's third law, as each kind of joint is meant to obey it *)
Definition third_law (j : @Joint R) (a b a' b' : Body R) : Prop :=
  if linear_joint j then opposite_push a b a' b' else opposite_torque a b a' b' (gear_factor j).
(** the arbiter is colliding now (not a cached or removed one) *)
Definition live (arb : Arb R) : Prop := ar_state arb <> Cached /\ ar_state arb <> Invalidated.
Definition is_rspring (j : @Joint R) : bool := match j with JRSpring _ => true | _ => false end.
(** the body's velocity changed by the impulse J *)
Definition lin_kick (a a' : Body R) (J : RV) : Prop := b_v a' = vplus (b_v a) (vscale (b_minv a) J) /\ b_minv a' = b_minv a.
(** body [b'] is [b] after the difference of two (impulse, angular impulse) totals *)
Definition kicked2 (b b' : Body R) (s s' : RV * R) : Prop := kicked b b' (vminus (fst s') (fst s)) (snd s' - snd s).
