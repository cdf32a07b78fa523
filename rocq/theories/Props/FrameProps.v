(** C128: the physics is the same in every frame of reference. *)
From Coq Require Import Reals ZArith Bool List Lra Lia.
From Verif Require Import Num Spec SpecBody SpecSolver SpecStep SpecFrame.
From Verif.Model Require Import Vector BB Transform Body Solver Step.
From Verif.Proofs Require Import RTac Geom BodyPf SolverPf StepPf FramePf.
From Verif.Props Require Import SolverProps StepProps.
Import ListNotations.
Local Open Scope R_scope.

(** turned and shifted: every body, any number of steps, with any contacts and joints in each; no other hypothesis *)
Theorem C128_turned_frame : forall g se evs sc, fr_speed g = mkV 0 0 -> about_origin g \/ Forall no_groove evs ->
  forall i, sc_body (steps (seen_settings g se) (seen_scene g sc) (map (seen_event g) evs)) i = seen_body g (sc_body (steps se sc evs) i).
Proof.
  intros g se evs sc U Gr i.
  assert (K : seenS (later g (fold_right Rplus 0 (map ev_dt evs))) (fun _ => True) (steps se sc evs) (steps (seen_settings g se) (seen_scene g sc) (map (seen_event g) evs))).
  { apply steps_frame; [now repeat split|now left|]. apply Forall_forall. intros e He. split; [now left|]. split; [now intros i0 k0 x0 _|].
    intros i0 k0 [p j] Hx. split; [exact Logic.I|]. split; [exact Logic.I|]. destruct Gr as [Gr|Gr]; [now left|right].
    rewrite Forall_forall in Gr. destruct j; cbn; try exact Logic.I. exact (Gr e He _ _ _ _ Hx). }
  rewrite later_zero in K by exact U. exact (proj1 K i Logic.I).
Qed.
(** and the impulses, normals and arms that the step stores in contacts and joints are the turned ones *)
Theorem C128_turned_impulses : forall g se sc e, ev_dt e <> 0 -> fr_speed g = mkV 0 0 -> about_origin g \/ no_groove e ->
  sc_arbs (step (seen_settings g se) (seen_scene g sc) (seen_event g e)) = seen_arbs g (sc_arbs (step se sc e)) /\
  sc_cons (step (seen_settings g se) (seen_scene g sc) (seen_event g e)) = seen_cons g (sc_cons (step se sc e)).
Proof.
  intros g se sc e N U Gr.
  refine (proj2 (step_frame g (fun _ => True) se sc (seen_scene g sc) e N _ (or_introl U) _ _)); [now repeat split|now intros i k x _|].
  intros i k [p j] Hx. split; [exact Logic.I|]. split; [exact Logic.I|]. destruct Gr as [Gr|Gr]; [now left|right].
  destruct j; cbn; try exact Logic.I. exact (Gr _ _ _ _ Hx).
Qed.
(** in uniform motion: bodies that move freely (no damping, all of them integrated, nothing but each other to touch) *)
Theorem C128_moving_frame : forall g se ids evs sc, se_damping se = 1 -> moved ids (sc_dyn sc) ->
  Forall (fun e => among ids e /\ moved ids (ev_dyn e) /\ no_groove e) evs ->
  let t := fold_right Rplus 0 (map ev_dt evs) in
  forall i, In i ids -> sc_body (steps (seen_settings g se) (seen_scene g sc) (map (seen_event g) evs)) i = seen_body (later g t) (sc_body (steps se sc evs) i).
Proof.
  intros g se ids evs sc D [M1 M2] F t i Hi.
  refine (proj1 (steps_frame (fun i => In i ids) se evs g sc (seen_scene g sc) _ _ _) i Hi); [now repeat split| |].
  - right. split; [exact D|]. split; [exact M1|exact M2].
  - rewrite Forall_forall in F |- *. intros e He. destruct (F e He) as ([Am1 Am2] & [N1 N2] & Gr). split; [right; split; [exact D|split; [exact N1|exact N2]]|].
    split; intros i0 k0 x Hx.
    + destruct (Am1 _ _ _ Hx). auto.
    + destruct (Am2 _ _ _ Hx). split; [assumption|]. split; [assumption|]. right. destruct x as [p j]. destruct j; cbn; try exact Logic.I. exact (Gr _ _ _ _ Hx).
Qed.
(** what does not depend on the frame at all *)
Corollary C128_invariants : forall g se evs sc, fr_speed g = mkV 0 0 -> about_origin g \/ Forall no_groove evs ->
  let w := sc_body (steps se sc evs) in let w' := sc_body (steps (seen_settings g se) (seen_scene g sc) (map (seen_event g) evs)) in
  forall i k, dist (b_p (w' i)) (b_p (w' k)) = dist (b_p (w i)) (b_p (w k)) /\ b_a (w' k) - b_a (w' i) = b_a (w k) - b_a (w i) /\
              norm (b_v (w' i)) = norm (b_v (w i)) /\ b_w (w' i) = b_w (w i).
Proof.
  intros g se evs sc U Gr w w' i k. unfold w'. rewrite !C128_turned_frame by assumption. fold w. cbn [seen_body b_p b_a b_v b_w].
  assert (E : cos (fr_angle g) * cos (fr_angle g) + sin (fr_angle g) * sin (fr_angle g) = 1) by (pose proof (sin2_cos2 (fr_angle g)) as H; unfold Rsqr in H; lra).
  split; [|split; [|split]]; [|ring| |reflexivity].
  - unfold dist, dist2, norm2, seen_point, vplus, vminus, turn. cbn [vx vy]. f_equal.
    match goal with |- ?l = ?r => transitivity ((cos (fr_angle g) * cos (fr_angle g) + sin (fr_angle g) * sin (fr_angle g)) * r); [ring|rewrite E; ring] end.
  - unfold norm, norm2, seen_velocity, vplus, turn. rewrite U. cbn [vx vy]. f_equal.
    match goal with |- ?l = ?r => transitivity ((cos (fr_angle g) * cos (fr_angle g) + sin (fr_angle g) * sin (fr_angle g)) * r); [ring|rewrite E; ring] end.
Qed.
(** the two bodies that collide and drive a motor (C112), seen from a train that moves at (3, -1) and leans *)
Example C128_nonvacuous : let se := mkSettings (mkV 0 (-10)) 1 (1 / 10) (1 / 2) 10 in let g := mkFrame (PI / 3) (mkV 5 7) (mkV 3 (-1)) in
  let bump2 := mkEvent (1 / 60) [0; 1; 2]%nat [((0, 1)%nat, hit)] (ev_cons bump) in
  se_damping se = 1 /\ moved [0; 1]%nat (sc_dyn scene) /\ among [0; 1]%nat bump2 /\ moved [0; 1]%nat (ev_dyn bump2) /\ no_groove bump2 /\
  b_v (seen_body g ball) <> b_v ball /\ fr_shift (later g 60) = mkV 185 (-53).
Proof.
  cbv zeta. split; [reflexivity|]. split; [apply C112_nonvacuous|]. split; [|split; [apply C112_nonvacuous|split]].
  - split; intros i k x Hx; cbn in Hx; repeat destruct Hx as [Hx|Hx]; try contradiction; injection Hx as <- <- _; cbn; intuition lia.
  - intros i k p q Hx. cbn in Hx. destruct Hx as [Hx|[]]. discriminate Hx.
  - split.
    + unfold seen_body, seen_velocity, ball, body_at, turn, vplus. cbn [b_v fr_angle fr_speed vx vy]. rewrite cos_PI3, sin_PI3. intros E. injection E as E1 E2. lra.
    + unfold later. cbn [fr_shift fr_speed]. apply vec_eq; unfold vplus, vscale; cbn [vx vy]; ring.
Qed.
(** Why grooves are excepted from shifts: the direction of the groove is normalized to 1/(1+1e-15), so the arm the joint computes for the
    middle of the groove is that fraction of a distance measured from the origin of the coordinates. *)
Example groove_shift_matters : let p := mkP 1 1 1 in let j := new_groove (mkV 0 0) (mkV 1 0) (mkV 0 0) in let g := mkFrame 0 (mkV 1 0) (mkV 0 0) in
  let a := body_at 1 1 0 0 0 0 0 in let b := body_at 1 1 (1 / 2) 1 0 0 0 in
  gr_r1 (groove_prestep p j 1 (seen_body g a) (seen_body g b)) <> seen_dir g (gr_r1 (groove_prestep p j 1 a b)).
Proof.
  cbv zeta. set (n := gr_n (new_groove (mkV 0 0) (mkV 1 0) (mkV 0 0))).
  assert (Hk : exists k, 0 < k < 1 /\ n = mkV 0 k).
  { exists (1 / (1 + 1 / 1000000000000000)). split.
    - split; [apply Rdiv_lt_0_compat; lra|]. apply Rmult_lt_reg_r with (1 + 1 / 1000000000000000); [lra|]. unfold Rdiv at 1. rewrite Rmult_assoc, Rinv_l by lra. lra.
    - unfold n, new_groove, vnormalize, vperp, vmult, vlen, vdot, vsub. cbn [gr_n]. unR. cbn [vx vy].
      replace (sqrt _) with 1 by (symmetry; replace (((1 - 0) * (1 - 0) + (0 - 0) * (0 - 0)))%R with 1 by ring; apply sqrt_1).
      apply vec_eq; cbn [vx vy]; [ring|rewrite Rminus_0_r; apply Rmult_1_l]. }
  destruct Hk as (k & Hk & En).
  assert (G : forall (a b : Body R) j p, gr_n j = mkV 0 k -> gr_a j = mkV 0 0 -> gr_b j = mkV 1 0 -> gr_B j = mkV 0 0 -> b_cog b = mkV 0 0 ->
    ta (b_tr a) = 1 -> tb (b_tr a) = 0 -> tc (b_tr a) = 0 -> td (b_tr a) = 1 -> b_p a = mkV (ttx (b_tr a)) 0 -> tty (b_tr a) = 0 -> b_p b = mkV (ttx (b_tr a) + 1 / 2) 1 ->
    vx (gr_r1 (groove_prestep p j 1 a b)) = (ttx (b_tr a) + 1 / 2) * (k * k) - ttx (b_tr a)).
  { intros a b j p E1 E2 E3 E4 E5 E6 E7 E8 E9 E10 E11 E12. unfold groove_prestep. rewrite E1, E2, E3, E4, E5, E10, E12. set (x := ttx (b_tr a)) in *.
    unfold t_point, t_vect. rewrite E6, E7, E8, E9, E11. cbv zeta. fold x. unfold vcross, vadd, vsub, vmult, vperp, vdot. unR. cbn [vx vy].
    assert (Z : ta (b_tr b) * (0 - 0) + tc (b_tr b) * (0 - 0) = 0) by ring. rewrite Z.
    match goal with |- context [if Rleb ?u ?v then _ else _] => replace u with (x * k + k / 2) by field; replace v with (x * k) by ring; replace (Rleb (x * k + k / 2) (x * k)) with false by (symmetry; apply Rleb_false; lra) end.
    match goal with |- context [if Rleb ?u ?v then _ else _] => replace (Rleb u v) with false by (symmetry; apply Rleb_false; lra) end.
    cbn [gr_r1 vx vy]. field. }
  set (p := mkP 1 1 1). set (j := new_groove _ _ _). set (g := mkFrame 0 (mkV 1 0) (mkV 0 0)). intros E.
  assert (X := f_equal vx E). rewrite (G _ _ j p) in X;
    try (unfold j, new_groove, seen_body, seen_transform, seen_point, seen_dir, body_at, turn, vplus, t_translate, t_transpose, g; cbn [gr_n gr_a gr_b gr_B b_cog b_tr b_p ta tb tc td ttx tty fr_angle fr_shift vx vy]; unR; rewrite ?cos_0, ?sin_0;
         first [exact En|reflexivity|ring|apply vec_eq; cbn [vx vy]; field]).
  assert (Y : vx (gr_r1 (groove_prestep p j 1 (body_at 1 1 0 0 0 0 0) (body_at 1 1 (1 / 2) 1 0 0 0))) = (0 + 1 / 2) * (k * k) - 0).
  { rewrite (G _ _ j p); [reflexivity|exact En|reflexivity..|]. apply vec_eq; cbn; field. }
  revert X. unfold seen_dir, turn, g. cbn [fr_angle vx]. rewrite cos_0, sin_0, Y.
  unfold seen_body, seen_transform, seen_point, body_at, turn, vplus, t_translate, t_transpose. cbn [b_tr ttx tty fr_angle fr_shift vx vy]. unR. rewrite cos_0, sin_0. nra.
Qed.
Print Assumptions C128_turned_frame.
Print Assumptions C128_turned_impulses.
Print Assumptions C128_moving_frame.
Print Assumptions C128_invariants.
