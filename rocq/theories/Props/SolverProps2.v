(** Properties C65-C68: forces, contact refresh, joint preparation, fresh joints. *)
From Coq Require Import Reals ZArith Bool List Lra Lia Permutation.
From Flocq Require Import Core.Raux.
From Verif Require Import Num Spec SpecBody SpecSolver.
From Verif.Model Require Import Vector BB Transform Body Solver.
From Verif.Proofs Require Import RTac BBOrder Geom BodyPf SolverPf SolverPf2 SolverPf3 SolverPf4 SolverPf5 SolverPf6.
From Verif.Props Require Import SolverProps.
Import ListNotations.
Local Open Scope R_scope.

(** A body that any calls of its API have led to. *)
Definition reachable (b : Body R) : Prop := exists m i h, b = body_after m i h.
Lemma reachable_aligned b : reachable b -> aligned b.
Proof. intros (m & i & h & ->). apply after_aligned. Qed.

(** ** C65: forces and impulses act about the centre of gravity *)
Theorem C65_force_world : forall b f p, reachable b -> let b' := b_apply_force_world b f p in
  b_f b' = vplus (b_f b) f /\ b_t b' = b_t b + crossR (vminus p (b_p b)) f /\ b_v b' = b_v b /\ b_w b' = b_w b /\ b_p b' = b_p b /\ b_a b' = b_a b.
Proof.
  intros b f p H. apply reachable_aligned in H. unfold b_apply_force_world. act b. pose proof (aligned_arm _ p (aligned_idle b x H)) as E. cbv zeta in *. rewrite E. ub. unR. splits; auto.
Qed.
Theorem C65_impulse_world : forall b J p, reachable b -> let b' := b_apply_impulse_world b J p in
  b_v b' = vplus (b_v b) (vscale (b_minv b) J) /\ b_w b' = b_w b + b_iinv b * crossR (vminus p (b_p b)) J /\
  b_f b' = b_f b /\ b_t b' = b_t b /\ b_p b' = b_p b /\ b_a b' = b_a b.
Proof.
  intros b J p H. apply reachable_aligned in H. unfold b_apply_impulse_world. act b. pose proof (aligned_arm _ p (aligned_idle b x H)) as E. cbv zeta in *. rewrite E.
  unfold apply_impulse. ub. unR. splits; auto. unfold vplus, vscale, vadd, vmult; unR; apply vec_eq; cbn [vx vy]; ring.
Qed.
(** the local versions are the same in the body's own coordinates *)
Theorem C65_local : forall b f p, reachable b ->
  b_apply_force_local b f p = b_apply_force_world b (turn (b_a b) f) (b_local_to_world b p) /\
  b_apply_impulse_local b f p = b_apply_impulse_world b (turn (b_a b) f) (b_local_to_world b p).
Proof.
  intros b f p H. apply reachable_aligned in H. unfold b_apply_force_local, b_apply_impulse_local.
  assert (E : t_vect (b_tr b) f = turn (b_a b) f).
  { destruct (aligned_tr b H) as (E1 & E2 & E3 & E4 & _). unfold t_vect, turn. rewrite E1, E2, E3, E4. unR. apply vec_eq; cbn [vx vy]; ring. }
  rewrite E. split; reflexivity.
Qed.
(** The accumulated force and torque become velocity at the next step and are cleared (dynamic bodies). *)
Theorem C65_force_integrated : forall b g damping dt, b_type b <> KINEMATIC -> let b' := b_update_velocity b g damping dt in
  b_v b' = vplus (vscale damping (b_v b)) (vscale dt (vplus g (vscale (b_minv b) (b_f b)))) /\
  b_w b' = damping * b_w b + dt * (b_iinv b * b_t b) /\ b_f b' = mkV 0 0 /\ b_t b' = 0.
Proof. intros b g d dt H. pose proof (update_velocity_dyn b g d dt H) as U. cbv zeta in *. tauto. Qed.
Example C65_nonvacuous : reachable (body_after 1 1 [OpSetPosition (mkV 3 4); OpSetAngle 1]) /\ reachable (b_new 1 1) /\
  crossR (vminus (mkV 1 0) (b_p (b_new (T:=R) 1 1))) (mkV 0 1) = 1.
Proof. splits; [now exists 1, 1, [OpSetPosition (mkV 3 4); OpSetAngle 1]|now exists 1, 1, []|].
  unfold b_new, b_set_mass, b_set_moment, b_set_angle. repeat match goal with |- context [b_activate ?x] => act x end.
  unfold crossR, vminus. ub. unR. cbn [vx vy]. lra.
Qed.

(** ** C66: refreshing a contact *)
Theorem C66_update_mixes : forall (arb : Arb R) n arr pa pb ea ua sa eb ub_ sb sw,
  let arb' := arb_update arb n arr pa pb ea ua sa eb ub_ sb sw in
  ar_e arb' = ea * eb /\ ar_u arb' = ua * ub_ /\ ar_n arb' = n /\ ar_swapped arb' = sw /\
  (* the surface velocity kept is the tangential part of the difference *)
  (unit n -> inner (ar_surf arb') n = 0 /\ exists k, vminus (vminus sb sa) (ar_surf arb') = vscale k n) /\
  (* a cached pair that touches again counts as a first collision, other states are kept *)
  (ar_state arb = Cached -> ar_state arb' = FirstCollision) /\ (ar_state arb <> Cached -> ar_state arb' = ar_state arb).
Proof.
  intros. unfold arb', arb_update. cbv zeta. cbn [ar_e ar_u ar_n ar_swapped ar_surf ar_state]. unR. splits; auto.
  - intros U. split.
    + unfold inner, vsub, vmult, vdot. unR. cbn [vx vy]. unfold unit, norm2 in U. 
      transitivity ((vx sb - vx sa) * vx n + (vy sb - vy sa) * vy n - ((vx sb - vx sa) * vx n + (vy sb - vy sa) * vy n) * (vx n * vx n + vy n * vy n)); [ring|rewrite U; ring].
    + exists (inner (vminus sb sa) n). unfold vminus, vscale, inner, vsub, vmult, vdot. unR. apply vec_eq; cbn [vx vy]; ring.
  - now intros ->.
  - destruct (ar_state arb); congruence.
Qed.
(** Contact points are stored relative to the bodies; a contact whose identity (hash) was there last time starts from the
    impulses it had reached, a new one starts from zero. *)
Theorem C66_warm_start : forall (arb : Arb R) n arr pa pb ea ua sa eb ub_ sb sw,
  Forall2 (fun c c' => vplus pa (c_r1 c') = c_r1 c /\ vplus pb (c_r2 c') = c_r2 c /\ c_hash c' = c_hash c /\
     ((forall o, In o (ar_contacts arb) -> c_hash o <> c_hash c) -> c_jnAcc c' = 0 /\ c_jtAcc c' = 0) /\
     (forall o, NoDup (map c_hash (ar_contacts arb)) -> In o (ar_contacts arb) -> c_hash o = c_hash c -> c_jnAcc c' = c_jnAcc o /\ c_jtAcc c' = c_jtAcc o))
   arr (ar_contacts (arb_update arb n arr pa pb ea ua sa eb ub_ sb sw)).
Proof.
  intros. unfold arb_update. cbv zeta. cbn [ar_contacts]. set (old := ar_contacts arb). induction arr as [|c arr IH]; cbn [map]; constructor; auto.
  unfold con_update. destruct (inherit old (c_hash c)) as [x y] eqn:E. cbn [c_r1 c_r2 c_hash c_jnAcc c_jtAcc]. splits.
  - unfold vplus, vsub; unR; apply vec_eq; cbn [vx vy]; ring.
  - unfold vplus, vsub; unR; apply vec_eq; cbn [vx vy]; ring.
  - reflexivity.
  - intros H. rewrite (inherit_spec old _ H) in E. now injection E as <- <-.
  - intros o ND Ho Hh. rewrite (inherit_unique old _ o Ho Hh ND) in E. now injection E as <- <-.
Qed.
(** ApplyCachedImpulse: nothing on the first contact, afterwards the stored impulses times dt_coef, opposite on the two bodies. *)
Theorem C66_cached_impulse : forall (arb : Arb R) k a b,
  (ar_state arb = FirstCollision -> arb_apply_cached arb k a b = (a, b)) /\
  (ar_state arb = Normal -> ar_swapped arb = true ->
   let '(a', b') := arb_apply_cached arb k a b in lin_kick b b' (vscale k (arb_total_impulse arb)) /\ lin_kick a a' (vscale (- k) (arb_total_impulse arb))) /\
  (ar_state arb = Normal -> ar_swapped arb = false ->
   let '(a', b') := arb_apply_cached arb k a b in lin_kick a a' (vscale k (arb_total_impulse arb)) /\ lin_kick b b' (vscale (- k) (arb_total_impulse arb))).
Proof.
  intros arb k a b. unfold arb_apply_cached. split; [now intros ->|].
  assert (L : ar_state arb = Normal -> live arb) by (intros E; split; rewrite E; discriminate).
  pose proof (cached_kick (ar_contacts arb) (ar_n arb) k a b) as C.
  assert (F : forall (s t : RV), s = t -> True) by auto. 
  split; intros S W; rewrite S; rewrite (total_impulse_sum arb (L S)), W; destruct (fold_left _ (ar_contacts arb) (a, b)) as [a' b']; destruct C as [C1 C2].
  - split; [replace (vscale k (vscale 1 (con_sum (ar_n arb) (ar_contacts arb)))) with (vscale k (con_sum (ar_n arb) (ar_contacts arb))); auto|
            replace (vscale (- k) (vscale 1 (con_sum (ar_n arb) (ar_contacts arb)))) with (vscale (- k) (con_sum (ar_n arb) (ar_contacts arb))); auto];
    unfold vscale; apply vec_eq; cbn [vx vy]; ring.
  - split; [replace (vscale k (vscale (-1) (con_sum (ar_n arb) (ar_contacts arb)))) with (vscale (- k) (con_sum (ar_n arb) (ar_contacts arb))); auto|
            replace (vscale (- k) (vscale (-1) (con_sum (ar_n arb) (ar_contacts arb)))) with (vscale k (con_sum (ar_n arb) (ar_contacts arb))); auto];
    unfold vscale; apply vec_eq; cbn [vx vy]; ring.
Qed.
(** Friction: PreStep's tangential mass makes an unsaturated friction impulse stop the tangential slip (relative to the surface
    velocity) in one iteration, when the contact is not coupled. *)
Theorem C66_friction_stops : forall (arb : Arb R) dt slop bias a b c0, unit (ar_n arb) -> inner (ar_surf arb) (ar_n arb) = 0 ->
  let n := ar_n arb in let t := mkV (- vy n) (vx n) in let c := con_prestep arb dt slop bias a b c0 in
  0 < eff a b (c_r1 c) (c_r2 c) t -> coupling a b (c_r1 c) (c_r2 c) n = 0 ->
  let '(a', b', c') := contact_step n (ar_surf arb) (ar_u arb) a b c in
  Rabs (c_jtAcc c') < ar_u arb * c_jnAcc c' -> inner (vplus (closing a' b' (c_r1 c) (c_r2 c)) (ar_surf arb)) t = 0.
Proof.
  intros arb dt slop bias a b c0 U S n t c He Hc.
  assert (Ut : unit t) by (unfold unit, norm2, t, n in *; cbn [vx vy]; unfold unit, norm2 in U; lra).
  assert (TM : c_tMass c = / eff a b (c_r1 c) (c_r2 c) t).
  { unfold c, con_prestep. cbv zeta. cbn [c_tMass c_r1 c_r2]. change (vperp (ar_n arb)) with t. rewrite k_scalar_eff by exact Ut. unR. unfold Rdiv; ring. }
  pose proof (contact_step_velocity n (ar_surf arb) (ar_u arb) a b c) as H. pose proof (contact_step_slip n (ar_surf arb) (ar_u arb) a b c) as H1.
  destruct (contact_step n (ar_surf arb) (ar_u arb) a b c) as [[a' b'] c'].
  destruct H as (_ & _ & _ & _ & H3). intros A. fold t in H1, H3. rewrite Hc, Rmult_0_r, Rplus_0_r in H1.
  set (x := c_jtAcc c - inner (vplus (closing a b (c_r1 c) (c_r2 c)) (ar_surf arb)) t * c_tMass c) in *. 
  assert (M : 0 <= ar_u arb * c_jnAcc c') by (pose proof (Rabs_pos (c_jtAcc c')); lra).
  assert (E : c_jtAcc c' = x).
  { rewrite H3 in A |- *. rewrite clampR in * by lra. unfold Rmax, Rmin, Rabs in *. destruct (Rle_dec x _) in *; destruct (Rle_dec _ _) in *; destruct (Rcase_abs _) in *; lra. }
  rewrite inner_vplus, H1, E. unfold x. rewrite TM, inner_vplus. field. lra.
Qed.
Example C66_nonvacuous : unit (ar_n hit) /\ inner (ar_surf hit) (ar_n hit) = 0 /\ 0 < eff ball crate (mkV 1 0) (mkV (-1) 0) (mkV 0 1) /\
  coupling ball crate (mkV 1 0) (mkV (-1) 0) (ar_n hit) = 0 /\ inherit (ar_contacts hit) 7 = (0, 0) /\ ar_state hit = FirstCollision.
Proof.
  unfold unit, norm2, inner, eff, coupling, crossR, hit, ball, crate, body_at, touch. cbn [vx vy ar_n ar_surf b_minv b_iinv ar_contacts ar_state]. splits; try reflexivity; try (unfold norm2; cbn [vx vy]); lra.
Qed.

(** ** C67: PreStep asks every joint to correct its position error at the bias rate *)
(** For each joint, [e] is its position error; unless limited by maxBias, the velocity it asks for would leave the fraction
    errorBias^dt of the error after the step. *)
Theorem C67_pivot : forall (p : @Params R) j dt a b, reachable a -> reachable b -> dt <> 0 -> 0 <= maxBias p ->
  let e := vminus (b_local_to_world b (piv_B j)) (b_local_to_world a (piv_A j)) in let j' := pivot_prestep p j dt a b in
  norm (piv_bias j') <= maxBias p /\
  (norm (vscale (- bias_coef (errorBias p) dt / dt) e) <= maxBias p -> vplus e (vscale dt (piv_bias j')) = vscale (npow (errorBias p) dt) e).
Proof.
  intros p j dt a b Ha Hb Hd Hm e. apply reachable_aligned in Ha, Hb. unfold e, b_local_to_world. rewrite <- (anchor_gap_world a b _ _ Ha Hb).
  now apply pivot_prestep_spec.
Qed.
Theorem C67_pin : forall (p : @Params R) j dt a b, reachable a -> reachable b -> dt <> 0 -> 0 <= maxBias p ->
  let e := dist (b_local_to_world b (pin_B j)) (b_local_to_world a (pin_A j)) - pin_dist j in let j' := pin_prestep p j dt a b in
  Rabs (pin_bias j') <= maxBias p /\ (Rabs (bias_coef (errorBias p) dt * e / dt) <= maxBias p -> e + dt * pin_bias j' = npow (errorBias p) dt * e).
Proof.
  intros p j dt a b Ha Hb Hd Hm e j'. apply reachable_aligned in Ha, Hb.
  assert (E : pin_bias j' = nclamp (- bias_coef (errorBias p) dt * e / dt) (- maxBias p) (maxBias p)).
  { unfold j', pin_prestep. cbv zeta. cbn [pin_bias]. unfold e. unR. rewrite vlen_norm. repeat f_equal. unfold dist, norm. f_equal.
    unfold b_local_to_world. rewrite (anchor_world a _ Ha), (anchor_world b _ Hb). unfold norm2, dist2, vadd, vsub, vplus, vminus. unR. cbn [vx vy]. ring. }
  rewrite E. now apply rate_spec.
Qed.
Theorem C67_gear : forall (p : @Params R) j dt a b, dt <> 0 -> 0 <= maxBias p ->
  let e := b_a b * ge_ratio j - b_a a - ge_phase j in let j' := gear_prestep p j dt a b in
  Rabs (ge_bias j') <= maxBias p /\ (Rabs (bias_coef (errorBias p) dt * e / dt) <= maxBias p -> e + dt * ge_bias j' = npow (errorBias p) dt * e).
Proof. intros p j dt a b Hd Hm e j'. apply (rate_spec p dt e Hd Hm). Qed.
(** slide: [e] is how far the anchors are beyond the limits; [n] points so that a positive rate increases it *)
Theorem C67_slide : forall (p : @Params R) j dt a b, reachable a -> reachable b -> dt <> 0 -> 0 <= maxBias p -> 0 <= sl_min j <= sl_max j ->
  let g := vminus (b_local_to_world b (sl_B j)) (b_local_to_world a (sl_A j)) in
  let e := Rmax 0 (Rmax (norm g - sl_max j) (sl_min j - norm g)) in let j' := slide_prestep p j dt a b in
  Rabs (sl_bias j') <= maxBias p /\ (Rabs (bias_coef (errorBias p) dt * e / dt) <= maxBias p -> e + dt * sl_bias j' = npow (errorBias p) dt * e) /\
  (sl_max j < norm g -> sl_n j' = vnormalize g) /\ (norm g < sl_min j -> sl_n j' = vneg (vnormalize g)) /\ (sl_min j <= norm g <= sl_max j -> sl_n j' = mkV 0 0).
Proof.
  intros p j dt a b Ha Hb Hd Hm Hl g e j'. apply reachable_aligned in Ha, Hb.
  assert (G : vsub (vadd (b_p b) (t_vect (b_tr b) (vsub (sl_B j) (b_cog b)))) (vadd (b_p a) (t_vect (b_tr a) (vsub (sl_A j) (b_cog a)))) = g).
  { unfold g, b_local_to_world. rewrite (anchor_world a _ Ha), (anchor_world b _ Hb). reflexivity. }
  assert (K : sl_bias j' = nclamp (- bias_coef (errorBias p) dt * e / dt) (- maxBias p) (maxBias p) /\
   (sl_max j < norm g -> sl_n j' = vnormalize g) /\ (norm g < sl_min j -> sl_n j' = vneg (vnormalize g)) /\ (sl_min j <= norm g <= sl_max j -> sl_n j' = mkV 0 0)).
  { unfold j', slide_prestep. cbv zeta. rewrite G, (vlen_norm g). unR. unfold e.
    destruct (Rltb_spec (sl_max j) (norm g)) as [C|C]; [|destruct (Rltb_spec (norm g) (sl_min j)) as [C'|C']]; cbn [sl_bias sl_n];
    (split; [match goal with |- nclamp (?k * ?x / ?d) _ _ = nclamp (?k * ?y / ?d) _ _ => replace y with x; [reflexivity|unfold Rmax; repeat destruct (Rle_dec _ _); lra] end|]); splits; intros; try lra; reflexivity. }
  destruct K as [K1 K2]. rewrite K1. split; [|split; [|exact K2]]; apply (rate_spec p dt e Hd Hm).
Qed.
(** rotary limit: [e] is how far the relative angle is beyond the limits (signed); the solver makes the relative spin -bias (C59) *)
Theorem C67_rotary : forall (p : @Params R) j dt a b, dt <> 0 -> 0 <= maxBias p -> ro_min j <= ro_max j ->
  let th := rel_angle a b in let e := th - Rmax (ro_min j) (Rmin th (ro_max j)) in let j' := rotary_prestep p j dt a b in
  Rabs (ro_bias j') <= maxBias p /\ (Rabs (bias_coef (errorBias p) dt * e / dt) <= maxBias p -> e + dt * (- ro_bias j') = npow (errorBias p) dt * e).
Proof.
  intros p j dt a b Hd Hm Hl th e j'.
  assert (K : ro_bias j' = nclamp (- bias_coef (errorBias p) dt * (- e) / dt) (- maxBias p) (maxBias p)).
  { unfold j', rotary_prestep. cbv zeta. unR. fold (rel_angle a b). fold th. unfold e.
    destruct (Rltb_spec (ro_max j) th) as [C|C]; [|destruct (Rltb_spec th (ro_min j)) as [C'|C']]; cbn [ro_bias];
    (do 4 f_equal; unfold Rmax, Rmin; repeat destruct (Rle_dec _ _); lra). }
  rewrite K. destruct (rate_spec p dt (- e) Hd Hm) as [S1 S2]. split; auto. intros H. unR. 
  assert (Rabs (bias_coef (errorBias p) dt * - e / dt) <= maxBias p) by (replace (bias_coef (errorBias p) dt * - e / dt) with (- (bias_coef (errorBias p) dt * e / dt)) by (unfold Rdiv; ring); now rewrite Rabs_Ropp).
  specialize (S2 H0). lra.
Qed.
(** ratchet: held back by the tooth [ra_angle], or else the tooth becomes the last one passed *)
Theorem C67_ratchet : forall (p : @Params R) j dt a b, dt <> 0 -> 0 <= maxBias p -> ra_ratchet j <> 0 ->
  let th := rel_angle a b in let j' := ratchet_prestep p j dt a b in
  ((ra_angle j - th) * ra_ratchet j > 0 -> let e := th - ra_angle j in ra_angle j' = ra_angle j /\ Rabs (ra_bias j') <= maxBias p /\
     (Rabs (bias_coef (errorBias p) dt * e / dt) <= maxBias p -> e + dt * (- ra_bias j') = npow (errorBias p) dt * e)) /\
  ((ra_angle j - th) * ra_ratchet j <= 0 -> ra_bias j' = 0 /\ ra_jAcc j' = 0 /\
     exists k : Z, ra_angle j' = ra_phase j + IZR k * ra_ratchet j /\ 0 <= (th - ra_angle j') / ra_ratchet j < 1).
Proof.
  intros p j dt a b Hd Hm Hr th j'. unfold j', ratchet_prestep. cbv zeta. unR. fold (rel_angle a b). fold th. split; intros H.
  - destruct (Rltb_spec 0 ((ra_angle j - th) * ra_ratchet j)) as [C|C]; [|lra]. cbn [ra_angle ra_bias].
    destruct (rate_spec p dt (ra_angle j - th) Hd Hm) as [S1 S2]. split; auto. split; auto. intros B. unR.
    assert (Rabs (bias_coef (errorBias p) dt * (ra_angle j - th) / dt) <= maxBias p) as B'.
    { replace (bias_coef (errorBias p) dt * (ra_angle j - th) / dt) with (- (bias_coef (errorBias p) dt * (th - ra_angle j) / dt)) by (unfold Rdiv; ring). now rewrite Rabs_Ropp. }
    specialize (S2 B'). lra.
  - destruct (Rltb_spec 0 ((ra_angle j - th) * ra_ratchet j)) as [C|C]; [lra|]. cbn [ra_angle ra_bias ra_jAcc ra_phase ra_ratchet].
    assert (Z0 : nclamp (- bias_coef (errorBias p) dt * 0 / dt) (- maxBias p) (maxBias p) = 0).
    { replace (- bias_coef (errorBias p) dt * 0 / dt) with 0 by (unfold Rdiv; ring). rewrite clampR by lra. unfold Rmax, Rmin. repeat destruct (Rle_dec _ _); lra. }
    rewrite Z0. split; [reflexivity|]. split; [destruct (Reqb_spec 0 0); [reflexivity|lra]|].
    set (q := (th - ra_phase j) / ra_ratchet j). exists (Zfloor q). split; [ring|].
    replace ((th - (IZR (Zfloor q) * ra_ratchet j + ra_phase j)) / ra_ratchet j) with (q - IZR (Zfloor q)) by (unfold q; field; auto).
    pose proof (Zfloor_lb q). pose proof (Zfloor_ub q). lra.
Qed.
(** groove (normal exactly unit and perpendicular, as SetGrooveA/B compute it up to Normalize's epsilon): the joint holds the
    second body's anchor to the nearest point of the groove, and knows when that is an end; it pulls towards that point at the
    bias rate; its impulse is perpendicular to the groove inside it, and at an end it can only push inwards. *)
Theorem C67_groove : forall (p : @Params R) j dt a b L, reachable a -> reachable b -> unit (gr_n j) -> 0 < L ->
  vminus (gr_b j) (gr_a j) = vscale L (dir_of (gr_n j)) -> dt <> 0 -> 0 <= maxBias p ->
  let j' := groove_prestep p j dt a b in
  let wa := b_local_to_world a (gr_a j) in let wb := b_local_to_world a (gr_b j) in let wB := b_local_to_world b (gr_B j) in
  let X := vplus (b_p a) (gr_r1 j') in let e := vminus wB X in
  on_segment wa wb X /\ (forall q, on_segment wa wb q -> dist2 wB X <= dist2 wB q) /\ vplus (b_p b) (gr_r2 j') = wB /\
  unit (gr_tn j') /\ vminus wb wa = vscale L (dir_of (gr_tn j')) /\
  (gr_clamp j' = 1 /\ X = wa \/ gr_clamp j' = -1 /\ X = wb \/ gr_clamp j' = 0) /\
  gr_k j' = k_tensor a b (gr_r1 j') (gr_r2 j') /\ norm (gr_bias j') <= maxBias p /\
  (norm (vscale (- bias_coef (errorBias p) dt / dt) e) <= maxBias p -> vplus e (vscale dt (gr_bias j')) = vscale (npow (errorBias p) dt) e).
Proof.
  intros p j dt a b L Ha Hb U HL Hg Hd Hm. apply reachable_aligned in Ha, Hb.
  destruct (groove_prestep_spec p j dt a b L Ha Hb U HL Hg) as (S1 & S2 & S3 & S4 & S5 & S6 & S7 & S8). cbv zeta. unfold b_local_to_world. splits; auto.
  - rewrite S1. unfold vplus, vminus. apply vec_eq; cbn [vx vy]; ring.
  - rewrite S8. now apply vclamp_norm.
  - intros H. rewrite S8, vclamp_short by exact H. unfold vplus, vscale, bias_coef. unR. apply vec_eq; cbn [vx vy]; field; auto.
Qed.
Theorem C67_groove_one_sided : forall p dt j a b, 0 <= maxForce p * dt -> unit (gr_tn j) -> (gr_clamp j = 0 \/ gr_clamp j = 1 \/ gr_clamp j = -1) ->
  let '(j', _, _) := groove_apply p j dt a b in
  0 <= gr_clamp j * inner (gr_jAcc j') (dir_of (gr_tn j)) /\ (gr_clamp j = 0 -> inner (gr_jAcc j') (dir_of (gr_tn j)) = 0).
Proof. exact groove_one_sided. Qed.
(** springs: Hooke's law along the line of the anchors, equal and opposite; *)
Theorem C67_spring_hooke : forall A B rest stiff damp dt a b, let j := new_spring A B rest stiff damp in
  let g := anchor_gap a b A B in g <> mkV 0 0 ->
  let '(_, a', b') := spring_prestep j dt a b in
  exists n, unit n /\ g = vscale (norm g) n /\
    lin_kick b b' (vscale (stiff * (rest - norm g) * dt) n) /\ lin_kick a a' (vscale (- (stiff * (rest - norm g) * dt)) n).
Proof.
  intros A B rest stiff damp dt a b j g Hg. pose proof (spring_prestep_spec j dt a b Hg) as S. destruct (spring_prestep j dt a b) as [[j' a'] b'].
  destruct S as (S1 & S2 & S3 & S4 & _). exists (sp_n j'). unfold j, new_spring, default_spring_force in S3, S4. cbn [sp_force sp_A sp_B] in *. fold g in S2, S3, S4. unR.
  rewrite (Rmult_comm stiff). auto.
Qed.
(** damping only ever removes a fraction of the relative velocity *)
Theorem C67_spring_damping : forall j dt a b, anchor_gap a b (sp_A j) (sp_B j) <> mkV 0 0 -> 0 <= sp_damp j -> 0 <= dt ->
  0 <= b_iinv a -> 0 <= b_iinv b -> 0 <= b_minv a -> 0 <= b_minv b -> 0 < b_minv a + b_minv b ->
  let '(j1, a1, b1) := spring_prestep j dt a b in let '(_, a2, b2) := spring_apply j1 a1 b1 in
  exists k, 0 < k <= 1 /\ inner (closing a2 b2 (sp_r1 j1) (sp_r2 j1)) (sp_n j1) = k * inner (closing a1 b1 (sp_r1 j1) (sp_r2 j1)) (sp_n j1).
Proof.
  intros j dt a b Hg Hd Ht I1 I2 M1 M2 M. pose proof (spring_prestep_spec j dt a b Hg) as S.
  assert (FR : let '(_, a1, b1) := spring_prestep j dt a b in b_minv a1 = b_minv a /\ b_minv b1 = b_minv b /\ b_iinv a1 = b_iinv a /\ b_iinv b1 = b_iinv b).
  { unfold spring_prestep. cbv zeta. match goal with |- context [apply_impulses a b ?r1 ?r2 ?J] => pose proof (apply_impulses_kicked a b r1 r2 J) as K; destruct (apply_impulses a b r1 r2 J) as [a1 b1] end.
    destruct K as [K1 K2]. unfold kicked in *. rewrite K1, K2. ub. auto. }
  destruct (spring_prestep j dt a b) as [[j1 a1] b1]. destruct S as (S1 & _ & _ & _ & S2 & S3 & S4). destruct FR as (F1 & F2 & F3 & F4).
  assert (E : eff a1 b1 (sp_r1 j1) (sp_r2 j1) (sp_n j1) = eff a b (sp_r1 j1) (sp_r2 j1) (sp_n j1)) by (unfold eff; now rewrite F1, F2, F3, F4).
  set (k := eff a b (sp_r1 j1) (sp_r2 j1) (sp_n j1)) in *.
  assert (Hk : 0 < k).
  { unfold k, eff. unfold unit in S1. rewrite S1. pose proof (pow2_ge_0 (crossR (sp_r1 j1) (sp_n j1))). pose proof (pow2_ge_0 (crossR (sp_r2 j1) (sp_n j1))).
    assert (0 <= b_iinv a * crossR (sp_r1 j1) (sp_n j1) ^ 2) by now apply Rmult_le_pos. assert (0 <= b_iinv b * crossR (sp_r2 j1) (sp_n j1) ^ 2) by now apply Rmult_le_pos. lra. }
  pose proof (spring_damping j1 a1 b1 S1) as D. rewrite E in D. specialize (D Hk S3). destruct (spring_apply j1 a1 b1) as [[j2 a2] b2]. destruct D as [D _].
  exists (1 - sp_vCoef j1). destruct (coef_range (sp_damp j) dt k Hd Ht) as [C1 C2]; [lra|]. rewrite S2 in *. split; [lra|]. rewrite D, S4. ring.
Qed.
Theorem C67_rotary_spring_hooke : forall rest stiff damp dt a b, let j := new_rspring rest stiff damp in
  let '(_, a', b') := rspring_prestep j dt a b in
  b_w b' = b_w b + b_iinv b * (stiff * (b_a a - b_a b - rest) * dt) /\ b_w a' = b_w a - b_iinv a * (stiff * (b_a a - b_a b - rest) * dt) /\ b_v a' = b_v a /\ b_v b' = b_v b.
Proof.
  intros. unfold rspring_prestep, spin, j, new_rspring, default_spring_torque. cbv zeta. cbn [rs_torque]. ub. unR. splits; auto; ring.
Qed.
Theorem C67_rotary_spring_damping : forall j dt a b, 0 <= rs_damp j -> 0 <= dt -> 0 < b_iinv a + b_iinv b ->
  let '(j1, a1, b1) := rspring_prestep j dt a b in let '(_, a2, b2) := rspring_apply j1 a1 b1 in
  exists k, 0 < k <= 1 /\ rel_spin a2 b2 = k * rel_spin a1 b1.
Proof.
  intros j dt a b Hd Ht Hi. pose proof (rspring_step j dt a b) as S. destruct (rspring_prestep j dt a b) as [[j1 a1] b1]. destruct S as (S1 & S2 & S3 & S4 & S5).
  assert (E : b_iinv a1 + b_iinv b1 = b_iinv a + b_iinv b) by (unfold kicked in *; rewrite S1, S2; reflexivity).
  pose proof (rspring_damping j1 a1 b1) as D. rewrite E in D. specialize (D ltac:(lra) S4). destruct (rspring_apply j1 a1 b1) as [[j2 a2] b2]. destruct D as [D _].
  exists (1 - rs_wCoef j1). destruct (coef_range (rs_damp j) dt _ Hd Ht (Rlt_le _ _ Hi)) as [C1 C2]. rewrite S3 in *. split; [lra|]. unfold rel_spin. rewrite S5 in D. lra.
Qed.
Example C67_nonvacuous : unit (gr_n (mkGroove (mkV 0 1) (mkV 0 0) (mkV 2 0) (mkV 0 0) vzero 0 vzero vzero m_zero vzero vzero)) /\
  vminus (mkV 2 0) (mkV 0 0) = vscale 2 (dir_of (mkV 0 1)) /\ anchor_gap ball crate (mkV 0 0) (mkV 0 0) = mkV 2 0 /\ reachable (b_new 1 1).
Proof.
  splits.
  - unfold unit, norm2. cbn [gr_n vx vy]. lra.
  - unfold vminus, vscale, dir_of. apply vec_eq; cbn [vx vy]; lra.
  - unfold anchor_gap, vminus, vplus, ball, crate, body_at. cbn [b_p b_tr b_cog]. unfold t_translate, t_vect. unR. cbn [vx vy ta tb tc td]. apply vec_eq; cbn [vx vy]; ring.
  - exists 1, 1, []. reflexivity.
Qed.

(** ** C68: a joint made from the bodies' current placement starts out satisfied *)
Theorem C68_pin : forall (p : @Params R) a b A B dt, reachable a -> reachable b -> 0 <= maxBias p ->
  pin_bias (pin_prestep p (new_pin a b A B) dt a b) = 0 /\ pin_dist (new_pin a b A B) = dist (b_local_to_world a A) (b_local_to_world b B).
Proof.
  intros p a b A B dt Ha Hb Hm. apply reachable_aligned in Ha, Hb. split.
  - unfold pin_prestep, new_pin. cbv zeta. cbn [pin_bias pin_dist pin_A pin_B].
    replace (vadd (b_p b) (vsub (t_vect (b_tr b) (vsub B (b_cog b))) (vadd (b_p a) (t_vect (b_tr a) (vsub A (b_cog a)))))) with (vsub (t_point (b_tr b) B) (t_point (b_tr a) A)).
    + unR. match goal with |- context [?x - ?x] => replace (x - x) with 0 by ring end. replace (- bias_coef (errorBias p) dt * 0 / dt) with 0 by (unfold Rdiv; ring).
      rewrite clampR by lra. unfold Rmax, Rmin. repeat destruct (Rle_dec _ _); lra.
    + rewrite (anchor_world a _ Ha), (anchor_world b _ Hb). unfold vadd, vsub, vplus, vminus. unR. apply vec_eq; cbn [vx vy]; ring.
  - unfold new_pin. cbn [pin_dist]. rewrite vlen_norm. unfold norm, dist. f_equal. unfold norm2, dist2, vsub, b_local_to_world. unR. cbn [vx vy]. ring.
Qed.
Theorem C68_pivot : forall a b w, reachable a -> reachable b -> let j := new_pivot a b w in
  b_local_to_world a (piv_A j) = w /\ b_local_to_world b (piv_B j) = w.
Proof.
  intros a b w Ha Hb. apply reachable_aligned, aligned_rigid in Ha, Hb. unfold new_pivot, new_pivot2, b_world_to_local, b_local_to_world. cbn [piv_A piv_B].
  split; now apply rigid_inverse_r.
Qed.
Theorem C68_ratchet : forall (p : @Params R) a b phase ratchet dt, dt <> 0 -> 0 <= maxBias p -> ratchet <> 0 ->
  let j := ratchet_prestep p (new_ratchet a b phase ratchet) dt a b in ra_bias j = 0 /\ ra_jAcc j = 0.
Proof.
  intros p a b phase ratchet dt Hd Hm Hr. destruct (C67_ratchet p (new_ratchet a b phase ratchet) dt a b Hd Hm Hr) as [_ H]. cbv zeta in H. unfold rel_angle in H. cbn [new_ratchet ra_angle ra_ratchet] in H. unR.
  destruct H as (H1 & H2 & _); auto. replace (b_a b - b_a a - (b_a b - b_a a)) with 0 by ring. lra.
Qed.
Example C68_nonvacuous : reachable (body_after 1 1 [OpSetPosition (mkV 3 4); OpSetAngle 1]).
Proof. now exists 1, 1, [OpSetPosition (mkV 3 4); OpSetAngle 1]. Qed.

Print Assumptions C65_force_world. Print Assumptions C65_impulse_world. Print Assumptions C65_local. Print Assumptions C65_force_integrated.
Print Assumptions C66_update_mixes. Print Assumptions C66_warm_start. Print Assumptions C66_cached_impulse. Print Assumptions C66_friction_stops.
Print Assumptions C67_pivot. Print Assumptions C67_pin. Print Assumptions C67_gear. Print Assumptions C67_slide. Print Assumptions C67_rotary. Print Assumptions C67_ratchet.
Print Assumptions C67_groove. Print Assumptions C67_groove_one_sided. Print Assumptions C67_spring_hooke. Print Assumptions C67_spring_damping. Print Assumptions C67_rotary_spring_hooke. Print Assumptions C67_rotary_spring_damping.
Print Assumptions C68_pin. Print Assumptions C68_pivot. Print Assumptions C68_ratchet.
