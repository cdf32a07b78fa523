(** Vocabulary for C128: the same space seen from another frame of reference (turned, shifted and, for the moving frames, in uniform motion). *)
From Coq Require Import Reals List.
From Verif Require Import Num Spec SpecBody.
From Verif.Model Require Import Vector BB Transform Body Solver Step.
Import ListNotations.
Local Open Scope R_scope.

(** a point [p] is seen at [turn angle p + shift]; the shift grows at the rate [speed] *)
Record frame := mkFrame { fr_angle : R; fr_shift : RV; fr_speed : RV }.
Definition later (g : frame) (t : R) : frame := mkFrame (fr_angle g) (vplus (fr_shift g) (vscale t (fr_speed g))) (fr_speed g).
Section Seen.
Variable g : frame.
(** points, velocities, and directions, offsets, forces and impulses *)
Definition seen_point (p : RV) : RV := vplus (turn (fr_angle g) p) (fr_shift g).
Definition seen_velocity (v : RV) : RV := vplus (turn (fr_angle g) v) (fr_speed g).
Definition seen_dir (v : RV) : RV := turn (fr_angle g) v.
(** the transform that maps body coordinates to where the point is seen *)
Definition seen_transform (t : Transform R) : Transform R :=
  let X := seen_dir (mkV (ta t) (tb t)) in let Y := seen_dir (mkV (tc t) (td t)) in let O := seen_point (mkV (ttx t) (tty t)) in
  mkT (vx X) (vy X) (vx Y) (vy Y) (vx O) (vy O).
(** masses, the shape list, angular velocity and torque are the same in every frame *)
Definition seen_body (b : Body R) : Body R :=
  mkBody (b_m b) (b_minv b) (b_i b) (b_iinv b) (b_cog b) (seen_point (b_p b)) (seen_velocity (b_v b)) (seen_dir (b_f b))
    (b_a b + fr_angle g) (b_w b) (b_t b) (seen_transform (b_tr b)) (seen_dir (b_vbias b)) (b_wbias b) (b_shapes b) (b_idle b).
Definition seen_contact (c : Contact R) : Contact R :=
  mkCon (seen_dir (c_r1 c)) (seen_dir (c_r2 c)) (c_nMass c) (c_tMass c) (c_bounce c) (c_jnAcc c) (c_jtAcc c) (c_jBias c) (c_bias c) (c_hash c).
Definition seen_arbiter (x : Arb R) : Arb R :=
  mkArb (ar_e x) (ar_u x) (seen_dir (ar_surf x)) (seen_dir (ar_n x)) (map seen_contact (ar_contacts x)) (ar_swapped x) (ar_state x).
(** a matrix: it maps seen directions to seen directions *)
Definition seen_matrix (m : Mat2x2 R) : Mat2x2 R :=
  let image v := seen_dir (mat_transform m (turn (- fr_angle g) v)) in let X := image (mkV 1 0) in let Y := image (mkV 0 1) in
  mkM (vx X) (vx Y) (vy X) (vy Y).
(** anchors are in body coordinates and stay; what the joint has stored in world coordinates is turned; the angular joints compare
    angles of the two bodies and stay, but a gear of ratio r compares b's angle times r with a's *)
Definition seen_joint (j : @Joint R) : @Joint R :=
  match j with
  | JPin q => JPin (mkPin (pin_A q) (pin_B q) (pin_dist q) (seen_dir (pin_r1 q)) (seen_dir (pin_r2 q)) (seen_dir (pin_n q)) (pin_nMass q) (pin_jnAcc q) (pin_bias q))
  | JPivot q => JPivot (mkPivot (piv_A q) (piv_B q) (seen_dir (piv_r1 q)) (seen_dir (piv_r2 q)) (seen_matrix (piv_k q)) (seen_dir (piv_jAcc q)) (seen_dir (piv_bias q)))
  | JSlide q => JSlide (mkSlide (sl_A q) (sl_B q) (sl_min q) (sl_max q) (seen_dir (sl_r1 q)) (seen_dir (sl_r2 q)) (seen_dir (sl_n q)) (sl_nMass q) (sl_jnAcc q) (sl_bias q))
  | JGroove q => JGroove (mkGroove (gr_n q) (gr_a q) (gr_b q) (gr_B q) (seen_dir (gr_tn q)) (gr_clamp q) (seen_dir (gr_r1 q)) (seen_dir (gr_r2 q)) (seen_matrix (gr_k q)) (seen_dir (gr_jAcc q)) (seen_dir (gr_bias q)))
  | JSpring q => JSpring (mkSpring (sp_A q) (sp_B q) (sp_rest q) (sp_stiff q) (sp_damp q) (sp_force q) (sp_target q) (sp_vCoef q) (seen_dir (sp_r1 q)) (seen_dir (sp_r2 q)) (sp_nMass q) (seen_dir (sp_n q)) (sp_jAcc q))
  | JGear q => JGear (mkGear (ge_phase q + fr_angle g * (ge_ratio q - 1)) (ge_ratio q) (ge_ratio_inv q) (ge_iSum q) (ge_bias q) (ge_jAcc q))
  | JRatchet _ | JRotary _ | JMotor _ | JRSpring _ => j
  end.
Definition seen_arbs (l : list (link (Arb R))) : list (link (Arb R)) := map (fun '(i, k, x) => (i, k, seen_arbiter x)) l.
Definition seen_cons (l : list (link (@Params R * @Joint R))) : list (link (@Params R * @Joint R)) := map (fun '(i, k, (p, j)) => (i, k, (p, seen_joint j))) l.
(** gravity is turned *)
Definition seen_settings (se : Settings R) : Settings R := mkSettings (seen_dir (se_gravity se)) (se_damping se) (se_slop se) (se_bias se) (se_iter se).
Definition seen_event (e : Event R) : Event R := mkEvent (ev_dt e) (ev_dyn e) (seen_arbs (ev_arbs e)) (seen_cons (ev_cons e)).
Definition seen_scene (s : Scene R) : Scene R := mkScene (fun i => seen_body (sc_body s i)) (sc_dyn s) (seen_arbs (sc_arbs s)) (seen_cons (sc_cons s)) (sc_dt s).
(** Groove joints compare positions measured from the origin with a direction that the code normalizes only to 1e-15: a turn about the
    origin is no exception, a shift is (the other nine joint types need no condition) *)
Definition no_groove (e : Event R) : Prop := forall i k p q, ~ In (i, k, (p, JGroove q)) (ev_cons e).
Definition about_origin : Prop := fr_shift g = mkV 0 0 /\ fr_speed g = mkV 0 0.
End Seen.
(** all arbiters and constraints are between bodies of [ids] *)
Definition among (ids : list nat) (e : Event R) : Prop :=
  (forall i k x, In (i, k, x) (ev_arbs e) -> In i ids /\ In k ids) /\ (forall i k x, In (i, k, x) (ev_cons e) -> In i ids /\ In k ids).
