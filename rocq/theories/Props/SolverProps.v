(** Properties C34-C38, C55, C59, C60: the impulse solver. *)
From Coq Require Import Reals ZArith Bool List Lra Lia Permutation.
From Flocq Require Import IEEE754.BinarySingleNaN.
From Verif Require Import Num Spec SpecBody SpecSolver.
From Verif.Model Require Import Vector BB Transform Body Solver.
From Verif.Proofs Require Import RTac BBOrder Geom BodyPf SolverPf SolverPf2 SolverPf3 SolverPf4 SolverPf5.
Import ListNotations.
Local Open Scope R_scope.

(** Concrete bodies for the examples. *)
Definition body_at (m i x y vx_ vy_ w : R) : Body R :=
  mkBody m (/ m) i (/ i) (mkV 0 0) (mkV x y) (mkV vx_ vy_) (mkV 0 0) 0 w 0 (t_translate (mkV x y)) (mkV 0 0) 0 [] 0.
Definition ball := body_at 2 1 0 0 1 0 0.
Definition crate := body_at 1 3 2 0 (-1) 0 1.
Definition touch : Contact R := mkCon (mkV 1 0) (mkV (-1) 0) (2 / 3) 1 0 0 0 0 0 7.
Definition hit : Arb R := mkArb 0 (1 / 2) (mkV 0 0) (mkV 1 0) [touch] false FirstCollision.

(** ** C34 *)
Theorem C34_admissible : forall (arb : Arb R) worlds, 0 <= ar_u arb -> worlds <> [] ->
  Forall (fun c => 0 <= c_jnAcc c /\ 0 <= c_jBias c /\ Rabs (c_jtAcc c) <= ar_u arb * c_jnAcc c) (ar_contacts (arb_iterations arb worlds)).
Proof.
  intros arb worlds Hu Hw. eapply Forall_impl; [|exact (arb_iterations_adm worlds arb Hw)].
  intros c ((x & Hx) & (y & Hy) & Ht). unR. assert (0 <= c_jnAcc c) by (rewrite Hx; apply Rmax_r). assert (0 <= c_jBias c) by (rewrite Hy; apply Rmax_r).
  destruct Ht as [T1 T2]; [rbool; now apply Rmult_le_pos|]. rbool. repeat split; auto. apply Rabs_le. lra.
Qed.
(** the same in binary64, as long as no NaN appears *)
Theorem C34_admissible_binary64 : forall (arb : Arb F) worlds, nleb nzero (ar_u arb) = true -> worlds <> [] ->
  Forall (fun c : Contact F => is_nan (c_jnAcc c) = false -> is_nan (c_jBias c) = false -> is_nan (nmul (ar_u arb) (c_jnAcc c)) = false -> admissible (ar_u arb) c)
    (ar_contacts (arb_iterations arb worlds)).
Proof.
  intros arb worlds Hu Hw. eapply Forall_impl; [|exact (arb_iterations_adm worlds arb Hw)].
  intros c ((x & Hx) & (y & Hy) & Ht) N1 N2 N3. 
  assert (P1 : nleb nzero (c_jnAcc c) = true) by (rewrite Hx; apply Fmax0_ok; change (Fok (nmax x nzero)); rewrite <- Hx; exact N1).
  assert (P2 : nleb nzero (c_jBias c) = true) by (rewrite Hy; apply Fmax0_ok; change (Fok (nmax y nzero)); rewrite <- Hy; exact N2).
  unfold admissible. exact (conj P1 (conj P2 (Ht (Fmul_nonneg _ _ Hu P1 N3)))).
Qed.
(** A Step always runs at least one iteration only if Iterations >= 1; with zero iterations warm-started values stay as they were. *)
Example C34_nonvacuous : exists c, ar_contacts (arb_iterations hit [(ball, crate)]) = [c] /\ c_jnAcc c = 4 / 3.
Proof.
  eexists. split; [reflexivity|]. cbn [c_jnAcc]. unfold relative_velocity, vdot, vadd, vsub, vmult, vperp, ball, crate, body_at, touch, hit.
  unR. cbn [vx vy b_v b_w c_r1 c_r2 c_nMass c_bounce c_jnAcc ar_n ar_surf]. unfold Rmax. destruct (Rle_dec _ _); lra.
Qed.

(** ** C35 *)
(** whatever the solver does -- warm starts, iterations and spring forces of any arbiters and joints, in any order --
    the total linear momentum is unchanged, *)
Theorem C35_linear_momentum : forall (l : list (nat * nat * action)) (w : world) ids,
  world_ok w ids -> Forall (act_ok ids) l -> momentum (acts w l) ids = momentum w ids.
Proof. exact acts_momentum. Qed.
(** so is the total angular momentum when every push acts along a common line of the two bodies, *)
Theorem C35_angular_momentum : forall (l : list (nat * nat * action)) (w : world) ids,
  world_ok w ids -> Forall (act_ok ids) l -> all_central w l -> angular_momentum (acts w l) ids = angular_momentum w ids.
Proof. exact acts_angular. Qed.
(** and a body of infinite mass is never moved. *)
Theorem C35_immovable : forall (l : list (nat * nat * action)) (w : world) k,
  immovable (w k) -> Forall (fun t => let '(i, j, _) := t in i <> j) l -> unmoved (w k) (acts w l k).
Proof. exact acts_immovable. Qed.
(** In general one contact impulse J changes the angular momentum by (gap between the two contact points) x J. *)
Theorem C35_angular_gap : forall a b r1 r2 J, finite_mass a -> finite_mass b ->
  let '(a', b') := apply_impulses a b r1 r2 J in
  b_i a' * b_w a' + b_m a' * crossR (b_p a') (b_v a') + (b_i b' * b_w b' + b_m b' * crossR (b_p b') (b_v b')) =
  b_i a * b_w a + b_m a * crossR (b_p a) (b_v a) + (b_i b * b_w b + b_m b * crossR (b_p b) (b_v b))
  + crossR (vminus (vplus (b_p b) r2) (vplus (b_p a) r1)) J.
Proof.
  intros a b r1 r2 J Ha Hb. pose proof (apply_impulses_ang a b r1 r2 J) as H. destruct (apply_impulses a b r1 r2 J). exact (H Ha Hb).
Qed.
(** so contacts with separated points (penetrating shapes) with friction do not conserve angular momentum exactly *)
Theorem C61_angular_momentum_refuted : exists (w : world) (arb : Arb R), world_ok w [0; 1]%nat /\
  Forall (fun c => 0 <= c_jnAcc c /\ Rabs (c_jtAcc c) <= ar_u arb * c_jnAcc c) (ar_contacts arb) /\
  angular_momentum (acts w [((0, 1)%nat, Contact_cached arb 1)]) [0; 1]%nat <> angular_momentum w [0; 1]%nat.
Proof.
  set (A := body_at 1 1 0 0 0 0 0). set (B := body_at 1 1 1 0 0 0 0).
  exists (fun k => match k with O => A | _ => B end).
  exists (mkArb 0 1 (mkV 0 0) (mkV 1 0) [mkCon (mkV 1 0) (mkV (-1) 0) 0 1 0 1 1 0 0 0] false Normal).
  assert (FA : finite_mass A) by (unfold finite_mass, A, body_at; cbn [b_m b_i b_minv b_iinv]; repeat split; lra).
  assert (FB : finite_mass B) by (unfold finite_mass, B, body_at; cbn [b_m b_i b_minv b_iinv]; repeat split; lra).
  split; [|split].
  - split; [repeat constructor; cbn; lia|]. intros i [<-|[<-|[]]]; assumption.
  - cbn [ar_contacts ar_u]. constructor; [|constructor]. cbn [c_jnAcc c_jtAcc]. split; [lra|apply Rabs_le; lra].
  - unfold acts. cbn [fold_left act_on act]. unfold arb_apply_cached. cbn [ar_state ar_contacts fold_left ar_n c_jnAcc c_jtAcc c_r1 c_r2].
    match goal with |- context [apply_impulses A B ?r1 ?r2 ?J] => pose proof (apply_impulses_ang A B r1 r2 J) as H; destruct (apply_impulses A B r1 r2 J) as [a' b'] end.
    specialize (H FA FB). unfold ang1 in H. cbn [angular_momentum set_body Nat.eqb]. unfold set_body; cbn [Nat.eqb].
    intros E. assert (G : crossR (gap A B (mkV 1 0) (mkV (-1) 0)) (vmult (vrotate (mkV 1 0) (mkV 1 1)) 1) = 0) by lra.
    revert G. unfold gap, crossR, vminus, vplus, vmult, vrotate, A, B, body_at; unR; cbn [vx vy b_p]. lra.
Qed.
Example C35_nonvacuous : exists w, world_ok w [0; 1]%nat /\ Forall (act_ok [0; 1]%nat) [((0, 1)%nat, Contact_iteration hit)] /\
  all_central w [((0, 1)%nat, Contact_iteration hit)].
Proof.
  exists (fun k => match k with O => ball | _ => crate end). split; [|split].
  - split; [repeat constructor; cbn; lia|]. intros i [<-|[<-|[]]]; unfold finite_mass, ball, crate, body_at; cbn [b_m b_i b_minv b_iinv]; repeat split; lra.
  - constructor; [|constructor]. cbn [act_ok In]. repeat split; auto; lia.
  - cbn [all_central]. split; [|exact I]. repeat constructor. unfold same_point, vplus, ball, crate, body_at, touch; cbn [b_p c_r1 c_r2 vx vy]. apply vec_eq; cbn [vx vy]; lra.
Qed.

(** ** C36 *)
(** One iteration of a contact, as prepared by PreStep (see [C36_prestep]): the separation speed is afterwards at least
    the requested one, and equal to it unless the impulse was clamped to zero; likewise for the bias velocities.
    The first part needs the friction impulse of that iteration not to feed back into the normal direction. *)
Theorem C36_contact_stops : forall n surf u a b c, unit n -> inner surf n = 0 -> 0 < eff a b (c_r1 c) (c_r2 c) n ->
  c_nMass c = / eff a b (c_r1 c) (c_r2 c) n ->
  let '(a', b', c') := contact_step n surf u a b c in
  (coupling a b (c_r1 c) (c_r2 c) n = 0 \/ c_jtAcc c' = c_jtAcc c ->
   - c_bounce c <= inner (closing a' b' (c_r1 c) (c_r2 c)) n /\
   (0 < c_jnAcc c' -> inner (closing a' b' (c_r1 c) (c_r2 c)) n = - c_bounce c)) /\
  c_bias c <= inner (bias_closing a' b' (c_r1 c) (c_r2 c)) n /\
  (0 < c_jBias c' -> inner (bias_closing a' b' (c_r1 c) (c_r2 c)) n = c_bias c).
Proof. exact contact_stops. Qed.
(** Normals produced by Normalize are slightly shorter than 1: the error is at most the fraction 1 - |n|^2 of the closing speed. *)
Theorem C36_contact_stops_near_unit : forall n surf u a b c, norm2 n <= 1 -> inner surf n = 0 ->
  0 <= b_minv a -> 0 <= b_minv b -> 0 <= b_iinv a -> 0 <= b_iinv b -> 0 < k_scalar a b (c_r1 c) (c_r2 c) n ->
  c_nMass c = / k_scalar a b (c_r1 c) (c_r2 c) n -> coupling a b (c_r1 c) (c_r2 c) n = 0 ->
  let '(a', b', c') := contact_step n surf u a b c in
  0 < c_jnAcc c' ->
  Rabs (inner (closing a' b' (c_r1 c) (c_r2 c)) n + c_bounce c) <=
    (1 - norm2 n) * Rabs (inner (closing a b (c_r1 c) (c_r2 c)) n + c_bounce c).
Proof. exact contact_stops_near. Qed.
(** PreStep sets the effective mass, the elastic target -e*vn and the position correction 
    bias*(penetration beyond the slop)/dt. *)
Theorem C36_prestep : forall (arb : Arb R) dt slop bias a b c, unit (ar_n arb) ->
  let c' := con_prestep arb dt slop bias a b c in let n := ar_n arb in
  let depth := - (inner (vminus (vplus (b_p b) (c_r2 c)) (vplus (b_p a) (c_r1 c))) n) in
  c_nMass c' = / eff a b (c_r1 c') (c_r2 c') n /\ c_bounce c' = ar_e arb * inner (closing a b (c_r1 c) (c_r2 c)) n /\
  c_bias c' = bias * Rmax 0 (depth - slop) / dt /\ c_jBias c' = 0 /\ c_jnAcc c' = c_jnAcc c /\ c_jtAcc c' = c_jtAcc c.
Proof.
  intros arb dt slop bias a b c U c' n depth. unfold c', con_prestep. cbv zeta. cbn [c_nMass c_bounce c_bias c_jBias c_jnAcc c_jtAcc c_r1 c_r2].
  rewrite k_scalar_eff by exact U. unfold normal_relative_velocity. rewrite closing_eq. vdi. unR. fold n.
  repeat match goal with |- _ /\ _ => split end; auto.
  - unfold Rdiv; ring.
  - ring.
  - replace (inner (vadd (vsub (c_r2 c) (c_r1 c)) (vsub (b_p b) (b_p a))) n) with (- depth)
      by (unfold depth, inner, vminus, vplus, vadd, vsub; unR; cbn [vx vy]; ring).
    replace (Rmin 0 (- depth + slop)) with (- Rmax 0 (depth - slop)) by (unfold Rmin, Rmax; destruct (Rle_dec _ _); destruct (Rle_dec _ _); lra).
    unfold Rdiv; ring.
Qed.
(** With friction and an off-centre contact the friction impulse of the same iteration can bring the bodies together again. *)
Theorem C62_friction_feedback_refuted : exists n a b c, unit n /\ 0 < eff a b (c_r1 c) (c_r2 c) n /\ c_nMass c = / eff a b (c_r1 c) (c_r2 c) n /\
  c_tMass c = / eff a b (c_r1 c) (c_r2 c) (mkV (- vy n) (vx n)) /\ c_bounce c = 0 /\ 
  let '(a', b', c') := contact_step n (mkV 0 0) 1 a b c in inner (closing a' b' (c_r1 c) (c_r2 c)) n < 0.
Proof.
  (* body b resting on the ground, contact at (1,-1) from its centre, sliding *)
  exists (mkV 0 1), (mkBody 1 0 1 0 (mkV 0 0) (mkV 0 0) (mkV 0 0) (mkV 0 0) 0 0 0 t_identity (mkV 0 0) 0 [] 0).
  exists (mkBody 1 1 1 1 (mkV 0 0) (mkV 0 0) (mkV 1 (-1)) (mkV 0 0) 0 0 0 t_identity (mkV 0 0) 0 [] 0).
  exists (mkCon (mkV 0 0) (mkV 1 (-1)) (/ 2) (/ 2) 0 0 0 0 0 0).
  unfold unit, eff, norm2, crossR. cbn [vx vy b_minv b_iinv c_r1 c_r2 c_nMass c_tMass c_bounce]. 
  repeat match goal with |- _ /\ _ => split end; try lra; try (f_equal; ring).
  match goal with |- context [contact_step ?n ?s ?u ?a ?b ?c] => pose proof (contact_step_velocity n s u a b c) as H; destruct (contact_step n s u a b c) as [[a' b'] c'] end.
  cbn [c_r1 c_r2 c_nMass c_tMass c_bounce c_jnAcc c_jtAcc c_jBias c_bias] in H. destruct H as (H1 & _ & H2 & _ & H3).
  cbn [c_r1 c_r2]. rewrite H1. clear H1.
  unfold eff, coupling, closing, point_velocity, inner, vminus, vplus, norm2, crossR in *. cbn [vx vy b_v b_w b_minv b_iinv] in *.
  assert (E2 : c_jnAcc c' = 1 / 2) by (rewrite H2; unfold Rmax; destruct (Rle_dec _ _); lra).
  assert (E3 : c_jtAcc c' = 1 / 2) by (rewrite H3, E2, clampR by lra; unfold Rmax, Rmin; destruct (Rle_dec _ _); destruct (Rle_dec _ _); lra).
  rewrite E2, E3. lra.
Qed.
Example C36_nonvacuous : unit (ar_n hit) /\ inner (ar_surf hit) (ar_n hit) = 0 /\ 0 < eff ball crate (c_r1 touch) (c_r2 touch) (ar_n hit) /\
  c_nMass touch = / eff ball crate (c_r1 touch) (c_r2 touch) (ar_n hit) /\ coupling ball crate (c_r1 touch) (c_r2 touch) (ar_n hit) = 0.
Proof.
  unfold unit, inner, eff, coupling, crossR, norm2, hit, touch, ball, crate, body_at. cbn [ar_n ar_surf vx vy c_r1 c_r2 c_nMass b_minv b_iinv].
  repeat match goal with |- _ /\ _ => split end; try lra.
Qed.

(** ** C37 *)
Theorem C37_impulse_bounded : forall (p : @Params R) dt j a b worlds, worlds <> [] -> is_spring j = false -> 0 <= maxForce p * dt ->
  sane_joint j a b -> (match j with JSlide j => 0 <= sl_max j | _ => True end) ->
  0 <= j_impulse (joint_step p dt j a b worlds) <= maxForce p * dt.
Proof. exact joint_step_within. Qed.
(** in binary64, whatever NaNs and infinities the bodies contain, for the joints with a scalar impulse *)
Theorem C37_impulse_bounded_binary64 : forall `{Trig F} (p : @Params F) dt j a b worlds, worlds <> [] ->
  (match j with JPin _ | JGear _ | JRotary _ | JMotor _ => True | _ => False end) -> nleb nzero (nmul (maxForce p) dt) = true ->
  let k := j_impulse (joint_step p dt j a b worlds) in nleb nzero k = true /\ nleb k (nmul (maxForce p) dt) = true.
Proof.
  intros TF p dt j a b worlds Hw Hj Hm k. apply scalar_step; auto. destruct j; try contradiction; reflexivity.
Qed.
(** The excluded slide-joint corner: anchors that coincide below the minimum. The joint is skipped and reports the impulse of an earlier step. *)
Theorem C63_slide_stale_refuted : exists (p : @Params R) dt j a b worlds, worlds <> [] /\ 0 <= maxForce p * dt /\
  maxForce p * dt < j_impulse (joint_step p dt (JSlide j) a b worlds).
Proof.
  exists (mkP 1 (1/2) 1), 1, (mkSlide (mkV 0 0) (mkV 0 0) 1 2 (mkV 0 0) (mkV 0 0) (mkV 1 0) 1 (-5) 0).
  exists (body_at 1 1 0 0 0 0 0), (body_at 1 1 0 0 0 0 0), [(ball, crate)]. split; [discriminate|]. cbn [maxForce]. split; [lra|].
  unfold joint_step. cbn [j_prestep joint_iterations j_apply].
  set (j := mkSlide (mkV 0 0) (mkV 0 0) 1 2 (mkV 0 0) (mkV 0 0) (mkV 1 0) 1 (-5) 0). set (bd := body_at 1 1 0 0 0 0 0).
  pose proof (slide_prestep_cases (mkP 1 (1/2) 1) j 1 bd bd) as C. cbv zeta in C.
  assert (G : anchor_gap bd bd (sl_A j) (sl_B j) = mkV 0 0).
  { unfold anchor_gap, bd, body_at, j, vminus, vplus, t_vect, t_translate, t_transpose. ub. cbn [sl_A sl_B]. unR. apply vec_eq; cbn [vx vy]; ring. }
  rewrite G, norm_zero in C. cbn [sl_max sl_min sl_jnAcc j] in C. destruct C as [(C & _)|[(_ & _ & C1 & C2)|(_ & C & _)]]; [lra| |lra].
  unfold slide_apply. rewrite C1.
  assert (Z : vequal (vneg (vnormalize (mkV 0 0))) vzero = true).
  { apply vequal_zero. rewrite normalize_eq. unfold vneg, vscale; unR; apply vec_eq; cbn [vx vy]; ring. }
  rewrite Z. cbn [j_impulse]. rewrite C2. unR. rewrite Rabs_left; lra.
Qed.
(** the two springs are not limited by maxForce, and their reported impulse is signed *)
Theorem C63_spring_refuted : exists (p : @Params R) dt j a b worlds, worlds <> [] /\ 0 <= maxForce p * dt /\
  j_impulse (joint_step p dt (JRSpring j) a b worlds) < - (maxForce p * dt).
Proof.
  exists (mkP 1 (1/2) 1), 1, (new_rspring 10 1 0), (body_at 1 1 0 0 0 0 0), (body_at 1 1 0 0 0 0 0), [(body_at 1 1 0 0 0 0 0, body_at 1 1 0 0 0 0 0)].
  split; [discriminate|]. cbn [maxForce]. split; [lra|]. unfold joint_step. cbn [j_prestep joint_iterations j_apply].
  unfold rspring_prestep, rspring_apply, new_rspring, default_spring_torque, spin, unspin. cbv zeta. cbn [j_impulse rs_jAcc rs_target rs_wCoef rs_iSum rs_torque]. ub.
  cbn [body_at b_w b_a]. unR. cbn [j_apply]. unfold rspring_apply, unspin. cbv zeta. cbn [j_impulse rs_jAcc rs_target rs_wCoef rs_iSum rs_torque]. unfold body_at. ub. unR.
  match goal with |- ?l < _ => replace l with (-10) by (unfold Rdiv; ring) end. lra.
Qed.
Example C37_nonvacuous : sane_joint (JSlide (new_slide (mkV 0 0) (mkV 0 0) 1 3)) ball crate /\ sane_joint (JRatchet (new_ratchet ball crate 0 1)) ball crate.
Proof.
  split; cbn [sane_joint new_ratchet ra_ratchet new_slide sl_A sl_B sl_min]; [|lra]. intros _ E. apply (f_equal vx) in E. revert E.
  unfold anchor_gap, ball, crate, body_at, vminus, vplus, t_vect, t_translate, t_transpose. ub. unR. lra.
Qed.

(** ** C38 *)
Theorem C38_third_law : forall p j dt k a b,
  (let '(_, a', b') := j_prestep p j dt a b in third_law j a b a' b') /\
  (let '(a', b') := j_cached j k a b in third_law j a b a' b') /\
  (let '(_, a', b') := j_apply p j dt a b in third_law j a b a' b').
Proof. intros. split; [apply joint_third_law_prestep|]. split; [apply joint_third_law_cached|apply joint_third_law]. Qed.
(** joints along a line (pin, slide, spring) push along the line through the two anchors: they conserve angular momentum too (C35) *)
Theorem C38_linear_joints_in_line : forall p dt a b,
  (forall j, let j' := pin_prestep p j dt a b in in_line a b (pin_r1 j') (pin_r2 j') (pin_n j')) /\
  (forall j, let j' := slide_prestep p j dt a b in in_line a b (sl_r1 j') (sl_r2 j') (sl_n j')) /\
  (forall j, let '(j', _, _) := spring_prestep j dt a b in in_line a b (sp_r1 j') (sp_r2 j') (sp_n j')).
Proof.
  intros. split; [intros; apply pin_prestep_spec|]. split; [intros; apply slide_prestep_line|intros; apply spring_prestep_line].
Qed.
(** a slide joint only pulls when too long, only pushes when too short, and does nothing in between *)
Theorem C38_slide_one_sided : forall (p : @Params R) dt j a b worlds, worlds <> [] -> 0 <= maxForce p * dt ->
  let g := anchor_gap a b (sl_A j) (sl_B j) in 0 <= sl_max j ->
  exists j', joint_step p dt (JSlide j) a b worlds = JSlide j' /\
  let J := fst (pushed (JSlide j')) in
  (sl_max j < norm g -> inner J g <= 0) /\ (norm g <= sl_max j -> norm g < sl_min j -> 0 <= inner J g) /\
  (norm g <= sl_max j -> sl_min j <= norm g -> J = mkV 0 0).
Proof. exact slide_one_sided. Qed.
(** a rotary limit only turns back from beyond the limit *)
Theorem C38_rotary_one_sided : forall (p : @Params R) dt j a b worlds, worlds <> [] -> 0 <= maxForce p -> 0 < dt -> 0 < errorBias p <= 1 -> 0 <= maxBias p ->
  ro_min j <= ro_max j ->
  exists j', joint_step p dt (JRotary j) a b worlds = JRotary j' /\
  (ro_max j < rel_angle a b -> ro_jAcc j' <= 0) /\ (rel_angle a b < ro_min j -> 0 <= ro_jAcc j') /\
  (ro_min j <= rel_angle a b <= ro_max j -> ro_jAcc j' = 0).
Proof. exact rotary_one_sided. Qed.
(** a ratchet only turns in the direction of its teeth, and only when held back by a tooth *)
Theorem C38_ratchet_one_sided : forall (p : @Params R) dt j a b worlds, worlds <> [] -> 0 <= maxForce p -> 0 < dt -> 0 <= maxBias p -> ra_ratchet j <> 0 ->
  exists j', joint_step p dt (JRatchet j) a b worlds = JRatchet j' /\ 0 <= ra_jAcc j' * ra_ratchet j /\
  ((ra_angle j - rel_angle a b) * ra_ratchet j <= 0 -> ra_jAcc j' = 0).
Proof. exact ratchet_one_sided. Qed.
Example C38_nonvacuous : let j := new_rotary 1 2 in ro_min j <= ro_max j /\ rel_angle ball crate < ro_min j.
Proof. unfold new_rotary, rel_angle, ball, crate, body_at; cbn [ro_min ro_max b_a]. lra. Qed.

(** ** C55 *)
Theorem C55_point_set_round_trip : forall (arb : Arb R) a b, arb_set_point_set arb a b (arb_point_set arb a b) = arb.
Proof. exact point_set_round_trip. Qed.
(** and the set read back after writing one is the one written, up to the distances, which are recomputed *)
Definition same_points (s s' : @PointSet R) : Prop := fst s = fst s' /\ map fst (snd s) = map fst (snd s').
Theorem C55_set_get : forall (arb : Arb R) a b s, live arb -> length (snd s) = length (ar_contacts arb) ->
  same_points (arb_point_set (arb_set_point_set arb a b s) a b) s.
Proof.
  intros arb a b [n pts] [L1 L2] HL. cbn [snd] in HL. unfold arb_point_set, arb_set_point_set, arb_count, same_points.
  destruct arb as [e u surf n0 l sw st]. cbn [ar_e ar_u ar_surf ar_n ar_contacts ar_swapped ar_state fst snd] in *.
  assert (F : forall X : list (Contact R), firstn (match st with Cached | Invalidated => 0 | _ => length X end) X = X).
  { intros X. destruct st; try contradiction; apply firstn_all. }
  rewrite F. split.
  - destruct sw; auto. unfold vneg; unR; apply vec_eq; cbn [vx vy]; ring.
  - rewrite map_map. clear F. revert pts HL. induction l as [|c l IH]; intros [|[[p1 p2] d] pts] HL; try discriminate; cbn [set_points map]; auto.
    assert (HL' : length pts = length l) by (cbn in HL; lia). specialize (IH pts HL').
    destruct sw; cbn [map]; rewrite IH; f_equal; cbn [fst c_r1 c_r2]; f_equal; unfold vadd, vsub; unR; apply vec_eq; cbn [vx vy]; ring.
Qed.
Example C55_nonvacuous : live hit /\ length (snd (arb_point_set hit ball crate)) = 1%nat.
Proof. split; [split; discriminate|reflexivity]. Qed.

(** ** C59: a joint whose impulse is not limited meets its velocity target exactly *)
Theorem C59_pin : forall p dt j a b, 0 <= maxForce p * dt -> 0 < eff a b (pin_r1 j) (pin_r2 j) (pin_n j) ->
  pin_nMass j = / eff a b (pin_r1 j) (pin_r2 j) (pin_n j) ->
  let '(j', a', b') := pin_apply p j dt a b in
  Rabs (pin_jnAcc j') < maxForce p * dt -> inner (closing a' b' (pin_r1 j) (pin_r2 j)) (pin_n j) = pin_bias j.
Proof. exact pin_solves. Qed.
(** ... where PreStep points [n] from anchor to anchor and asks for the distance error to shrink by the bias coefficient *)
Theorem C59_pin_prestep : forall (p : @Params R) j dt a b, let j' := pin_prestep p j dt a b in let g := anchor_gap a b (pin_A j) (pin_B j) in
  g <> mkV 0 0 -> unit (pin_n j') /\ pin_nMass j' = / eff a b (pin_r1 j') (pin_r2 j') (pin_n j') /\
   pin_bias j' = nclamp (- bias_coef (errorBias p) dt * (norm g - pin_dist j) / dt) (- maxBias p) (maxBias p).
Proof. intros p j dt a b. apply pin_prestep_spec. Qed.
Theorem C59_slide : forall p dt j a b, 0 <= maxForce p * dt -> 0 < eff a b (sl_r1 j) (sl_r2 j) (sl_n j) ->
  sl_nMass j = / eff a b (sl_r1 j) (sl_r2 j) (sl_n j) -> sl_n j <> mkV 0 0 ->
  let '(j', a', b') := slide_apply p j dt a b in
  (- (maxForce p * dt) < sl_jnAcc j' -> inner (closing a' b' (sl_r1 j) (sl_r2 j)) (sl_n j) <= sl_bias j) /\
  (- (maxForce p * dt) < sl_jnAcc j' < 0 -> inner (closing a' b' (sl_r1 j) (sl_r2 j)) (sl_n j) = sl_bias j).
Proof. exact slide_solves. Qed.
Theorem C59_pivot : forall p dt j a b, 0 <= b_minv a -> 0 <= b_minv b -> 0 < b_minv a + b_minv b -> 0 <= b_iinv a -> 0 <= b_iinv b ->
  piv_k j = k_tensor a b (piv_r1 j) (piv_r2 j) ->
  norm (vplus (piv_jAcc j) (mat_transform (piv_k j) (vminus (piv_bias j) (closing a b (piv_r1 j) (piv_r2 j))))) <= maxForce p * dt ->
  let '(j', a', b') := pivot_apply p j dt a b in closing a' b' (piv_r1 j) (piv_r2 j) = piv_bias j.
Proof. exact pivot_solves. Qed.
Theorem C59_gear : forall p dt j a b, 0 <= maxForce p * dt -> ge_ratio j <> 0 -> ge_ratio_inv j = / ge_ratio j ->
  b_iinv a * ge_ratio_inv j + ge_ratio j * b_iinv b <> 0 -> ge_iSum j = 1 / (b_iinv a * ge_ratio_inv j + ge_ratio j * b_iinv b) ->
  let '(j', a', b') := gear_apply p j dt a b in Rabs (ge_jAcc j') < maxForce p * dt -> b_w b' * ge_ratio j - b_w a' = ge_bias j.
Proof. exact gear_solves. Qed.
Theorem C59_motor : forall p dt j a b, 0 <= maxForce p * dt -> b_iinv a + b_iinv b <> 0 ->
  let '(j', a', b') := motor_apply p (motor_prestep j a b) dt a b in Rabs (mo_jAcc j') < maxForce p * dt -> rel_spin a' b' = - mo_rate j.
Proof. intros p dt j a b Hm Hk. apply (motor_solves p dt (motor_prestep j a b) a b Hm Hk). unfold motor_prestep; cbn [mo_iSum]; unR; reflexivity. Qed.
Theorem C59_rotary : forall p dt j a b, 0 <= maxForce p * dt -> 0 < b_iinv a + b_iinv b -> ro_iSum j = 1 / (b_iinv a + b_iinv b) ->
  let '(j', a', b') := rotary_apply p j dt a b in
  (ro_bias j < 0 -> ro_jAcc j' < maxForce p * dt -> - ro_bias j <= rel_spin a' b') /\
  (0 < ro_bias j -> - (maxForce p * dt) < ro_jAcc j' -> rel_spin a' b' <= - ro_bias j) /\
  (ro_bias j <> 0 -> ro_jAcc j' <> 0 -> Rabs (ro_jAcc j') < maxForce p * dt -> rel_spin a' b' = - ro_bias j).
Proof. exact rotary_solves. Qed.
Theorem C59_ratchet : forall p dt j a b, 0 <= maxForce p * dt -> 0 < b_iinv a + b_iinv b -> ra_ratchet j <> 0 -> ra_bias j <> 0 ->
  ra_iSum j = 1 / (b_iinv a + b_iinv b) ->
  let '(j', a', b') := ratchet_apply p j dt a b in
  ra_jAcc j' <> 0 -> Rabs (ra_jAcc j') < maxForce p * dt -> rel_spin a' b' = - ra_bias j.
Proof. exact ratchet_solves. Qed.
(** the effective masses PreStep hands to the other joints *)
Theorem C59_prestep_masses : forall (p : @Params R) dt a b,
  (forall j, piv_k (pivot_prestep p j dt a b) = k_tensor a b (piv_r1 (pivot_prestep p j dt a b)) (piv_r2 (pivot_prestep p j dt a b))) /\
  (forall ph r, ge_ratio_inv (new_gear ph r) = 1 / r) /\
  (forall j, ge_iSum (gear_prestep p j dt a b) = 1 / (b_iinv a * ge_ratio_inv j + ge_ratio j * b_iinv b)) /\
  (forall j, ro_iSum (rotary_prestep p j dt a b) = 1 / (b_iinv a + b_iinv b)) /\
  (forall j, ra_iSum (ratchet_prestep p j dt a b) = 1 / (b_iinv a + b_iinv b)).
Proof.
  intros. repeat match goal with |- _ /\ _ => split end.
  - intros j. unfold pivot_prestep. cbv zeta. cbn [piv_k piv_r1 piv_r2]. exact eq_refl.
  - intros. unfold new_gear; cbn [ge_ratio_inv]. unR. exact eq_refl.
  - intros. unfold gear_prestep; cbn [ge_iSum]. unR. exact eq_refl.
  - intros. unfold rotary_prestep; cbv zeta; cbn [ro_iSum]. unR. exact eq_refl.
  - intros j. unfold ratchet_prestep. cbv zeta. destruct (nltb _ _); cbn [ra_iSum]; unR; exact eq_refl.
Qed.
Example C59_nonvacuous : let p := mkP 1000 (1/2) 10 in let j := motor_prestep (new_motor 5) ball crate in
  0 <= maxForce p * 1 /\ b_iinv ball + b_iinv crate <> 0 /\ (let '(j', _, _) := motor_apply p j 1 ball crate in Rabs (mo_jAcc j') < maxForce p * 1).
Proof.
  cbv zeta. cbn [maxForce]. split; [lra|]. split; [unfold ball, crate, body_at; cbn [b_iinv]; lra|].
  unfold motor_apply, motor_prestep, new_motor, spin. cbv zeta. cbn [mo_jAcc mo_rate mo_iSum maxForce]. unfold ball, crate, body_at; cbn [b_w b_iinv]. unR.
  rewrite clampR by lra. unfold Rmax, Rmin. destruct (Rle_dec _ _); destruct (Rle_dec _ _); apply Rabs_def1; lra.
Qed.

(** ** C60: the reported impulses are the applied ones *)
(** any number of iterations change the second body exactly by the growth of the accumulated impulse, *)
Theorem C60_joint_bookkeeping : forall p dt k j a b, is_rspring j = false ->
  let '(j', a', b') := joint_loop p dt k (j, a, b) in kicked2 b b' (pushed j) (pushed j').
Proof. exact joint_loop_bookkeeping. Qed.
(** warm starting applies the accumulated impulse times dt_coef, *)
Theorem C60_warm_start : forall j k a b, is_spring j = false -> let '(a', b') := j_cached j k a b in kicked b b' (vscale k (fst (pushed j))) (k * snd (pushed j)).
Proof. exact joint_cached_bookkeeping. Qed.
(** a spring starts with what it applies in PreStep. *)
Theorem C60_spring_start : forall p j dt a b, is_spring j = true ->
  let '(j', a', b') := j_prestep p j dt a b in kicked b b' (fst (pushed j')) (snd (pushed j')).
Proof. exact spring_prestep_bookkeeping. Qed.
(** An arbiter's TotalImpulse is the impulse its first body received. *)
Theorem C60_total_impulse : forall k arb a b, live arb -> let '(arb', a', b') := arb_loop k (arb, a, b) in
  let D := vminus (arb_total_impulse arb') (arb_total_impulse arb) in
  lin_kick (if ar_swapped arb then b else a) (if ar_swapped arb then b' else a') D /\
  lin_kick (if ar_swapped arb then a else b) (if ar_swapped arb then a' else b') (vscale (-1) D).
Proof.
  intros k arb a b HL. pose proof (arb_loop_kick k arb a b HL) as H. destruct (arb_loop k (arb, a, b)) as [[arb' a'] b']. tauto.
Qed.
(** A damped rotary spring counts its damping with the wrong sign: it applies the opposite of what it adds to its impulse. *)
Theorem C64_rotary_spring_refuted : exists p dt j a b, let '(j', a', b') := j_apply p (JRSpring j) dt a b in
  ~ kicked2 b b' (pushed (JRSpring j)) (pushed j').
Proof.
  exists (mkP 1 1 1), 1, (mkRSpring 0 0 1 (fun _ => 0) 0 (1/2) (3/4) 0), ball, crate. cbn [j_apply]. unfold rspring_apply, unspin. cbv zeta.
  cbn [rs_target rs_wCoef rs_iSum rs_jAcc]. unfold kicked2, kicked. cbn [pushed fst snd rs_jAcc]. intros E. apply (f_equal b_w) in E. revert E.
  unfold ball, crate, body_at. ub. unR. lra.
Qed.
Example C60_nonvacuous : is_rspring (JPin (new_pin ball crate (mkV 0 0) (mkV 0 0))) = false.
Proof. reflexivity. Qed.

Print Assumptions C34_admissible. Print Assumptions C34_admissible_binary64.
Print Assumptions C35_linear_momentum. Print Assumptions C35_angular_momentum. Print Assumptions C35_immovable. Print Assumptions C35_angular_gap. Print Assumptions C61_angular_momentum_refuted.
Print Assumptions C36_contact_stops. Print Assumptions C36_contact_stops_near_unit. Print Assumptions C36_prestep. Print Assumptions C62_friction_feedback_refuted.
Print Assumptions C37_impulse_bounded. Print Assumptions C37_impulse_bounded_binary64. Print Assumptions C63_slide_stale_refuted. Print Assumptions C63_spring_refuted.
Print Assumptions C38_third_law. Print Assumptions C38_linear_joints_in_line. Print Assumptions C38_slide_one_sided. Print Assumptions C38_rotary_one_sided. Print Assumptions C38_ratchet_one_sided.
Print Assumptions C55_point_set_round_trip. Print Assumptions C55_set_get.
Print Assumptions C59_pin. Print Assumptions C59_slide. Print Assumptions C59_pivot. Print Assumptions C59_gear. Print Assumptions C59_motor. Print Assumptions C59_rotary. Print Assumptions C59_ratchet. Print Assumptions C59_prestep_masses. Print Assumptions C59_pin_prestep.
Print Assumptions C60_joint_bookkeeping. Print Assumptions C60_warm_start. Print Assumptions C60_spring_start. Print Assumptions C60_total_impulse. Print Assumptions C64_rotary_spring_refuted.
