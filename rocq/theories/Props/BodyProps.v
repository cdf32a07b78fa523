(** Properties C07, C08, C52, C56: rigid bodies. *)
From Coq Require Import Reals ZArith Bool List Lra Permutation.
From Flocq Require Import IEEE754.BinarySingleNaN.
From Verif Require Import Num Spec SpecBody.
From Verif.Model Require Import Vector BB Transform Body.
From Verif.Proofs Require Import RTac Geom BodyPf.
Import ListNotations.
Local Open Scope R_scope.

(** ** C07 *)
Theorem C07_frames : forall mass moment (h : list body_op), let b := body_after mass moment h in
  b_rotation b = mkV (cos (b_a b)) (sin (b_a b)) /\
  (forall x, b_local_to_world b x = vplus (b_position b) (turn (b_a b) x)) /\
  (forall x, b_world_to_local b (b_local_to_world b x) = x) /\
  (forall x, b_local_to_world b (b_world_to_local b x) = x) /\
  (forall x y, dist (b_local_to_world b x) (b_local_to_world b y) = dist x y).
Proof.
  intros mass moment h b. assert (A : aligned b) by apply after_aligned. pose proof (aligned_rigid b A) as G.
  exact (conj (aligned_rotation b A) (conj (fun x => aligned_l2w b x A)
    (conj (fun x => rigid_inverse_l _ x G) (conj (fun x => rigid_inverse_r _ x G) (fun x y => rigid_dist _ x y G))))).
Qed.
Theorem C07_set_position : forall mass moment h p, let b := b_set_position (body_after mass moment h) p in
  b_position b = p /\ b_a b = b_a (body_after mass moment h).
Proof.
  intros. destruct (aligned_tr _ (after_aligned mass moment h)) as (A1 & A2 & A3 & A4 & _).
  split; [exact (set_position_pos _ p A1 A2 A3 A4)|]. unfold b, b_set_position. destruct (activate_eq (body_after mass moment h)) as [x ->]. reflexivity.
Qed.
(** SetAngle turns the body about its centre of gravity, which stays where it is in the world;
    with the centre of gravity at the local origin Position() stays as well. *)
Theorem C07_set_angle : forall mass moment h a, let b := body_after mass moment h in let b' := b_set_angle b a in
  b_a b' = a /\ b_local_to_world b' (b_cog b) = b_local_to_world b (b_cog b) /\ b_cog b' = b_cog b /\
  b_position b' = vminus (b_local_to_world b (b_cog b)) (turn a (b_cog b)) /\
  (b_cog b = mkV 0 0 -> b_position b' = b_position b).
Proof.
  intros mass moment h a b b'. assert (A : aligned b) by apply after_aligned.
  assert (A' : aligned b') by exact (do_op_aligned b (OpSetAngle a) A).
  destruct (set_angle_spec b a A) as (H1 & H2 & H3). fold b' in H1, H2, H3. rewrite H3 in H2.
  repeat match goal with |- _ /\ _ => split end; auto.
  - rewrite <- H2, (aligned_l2w b' _ A'), H1. unfold vminus, vplus. apply vec_eq; cbn [vx vy]; ring.
  - intros; apply set_angle_pos0; auto.
Qed.
(** changing the attached shapes, their mass, or the body type never moves the body *)
Theorem C07_mass_changes_keep_position : forall mass moment h o, let b := body_after mass moment h in
  match o with OpAddShape _ | OpRemoveShape _ | OpShapeMass _ _ | OpShapeGeometry _ _ _ _ | OpSetType _ | OpSetMass _ | OpSetMoment _ => True | _ => False end ->
  b_position (do_op b o) = b_position b.
Proof.
  intros mass moment h o b Ho. assert (A : aligned b) by apply after_aligned.
  destruct o; cbn in Ho; try contradiction; cbn [do_op].
  - unfold b_set_mass. destruct (activate_eq b) as [x ->]. reflexivity.
  - unfold b_set_moment. destruct (activate_eq b) as [x ->]. reflexivity.
  - unfold b_add_shape. destruct (_ <? _)%num; [etransitivity; [apply accumulate_position; exact A|reflexivity]|reflexivity].
  - unfold b_remove_shape. destruct (nth_error _ _); auto. destruct (_ && _)%bool; [etransitivity; [apply accumulate_position; exact A|reflexivity]|reflexivity].
  - unfold b_shape_set_mass. destruct (nth_error _ _); auto. destruct (activate_eq b) as [x ->]. etransitivity; [apply accumulate_position; exact A|reflexivity].
  - unfold b_shape_set_geometry. destruct (nth_error _ _); auto. match goal with |- context [if ?c then _ else _] => destruct c end; [|reflexivity]. etransitivity; [apply accumulate_position; exact A|reflexivity].
  - unfold b_set_type. match goal with |- context [if ?c then b else _] => destruct c end; auto.
    destruct ty; try reflexivity. etransitivity; [apply accumulate_position; exact A|reflexivity].
Qed.
Theorem C07_point_velocity : forall mass moment h x, let b := body_after mass moment h in
  b_velocity_at_local b x = b_velocity_at_world b (b_local_to_world b x) /\
  b_velocity_at_world b x = vplus (b_v b) (vscale (b_w b)
     (turn (PI / 2) (vminus x (b_local_to_world b (b_cog b))))).
Proof.
  intros mass moment h x b. assert (A : aligned b) by apply after_aligned. split; [apply velocity_local_world, A|].
  rewrite velocity_world_spec, aligned_cog by exact A. unfold turn, vminus, vscale, vplus. cbn [vx vy]. rewrite cos_PI2, sin_PI2.
  apply vec_eq; cbn [vx vy]; ring.
Qed.
(** a non-trivial body: two shapes, moved, turned, integrated *)
Definition shapes2 : list (MassInfo R) := [mkMI 2 1 1 (mkV 1 0); mkMI 1 3 1 (mkV 4 6)].
Definition hist2 : list body_op := map OpAddShape shapes2.
Example C07_nonvacuous : b_cog (body_after 0 0 hist2) = mkV 2 2.
Proof.
  set (b := body_after 0 0 hist2).
  assert (M : dyn_mass b) by (apply history_mass; repeat constructor; intros []).
  assert (S : b_shapes b = shapes2).
  { unfold b, body_after, hist2, shapes2; cbn [map fold_left do_op]. rewrite !add_shape_shapes, new_shapes. reflexivity. }
  assert (H0 := MaxFloat_big).
  assert (Hbig : 100 < MaxFloat64) by (unfold MaxFloat64; apply IZR_lt; vm_compute; reflexivity).
  assert (T : b_type b = DYNAMIC).
  { unfold b, body_after, hist2, shapes2; cbn [map fold_left do_op].
    apply add_shape_type; [apply add_shape_type; [apply new_type; lra|]|];
    rewrite ?add_shape_shapes, ?new_shapes; unfold total_mass, massive; cbn;
    repeat (destruct (Rlt_dec _ _); cbn; try lra). }
  destruct (M T) as [_ K]. rewrite S in K.
  assert (total_mass shapes2 = 3) as Em.
  { unfold total_mass, massive, shapes2; cbn. repeat (destruct (Rlt_dec _ _); cbn; try lra). }
  destruct K as [K _]; [lra|]. rewrite K. unfold mean_cog. rewrite Em. unfold massive, shapes2; cbn.
  repeat (destruct (Rlt_dec _ _); cbn; try lra). apply vec_eq; cbn; field.
Qed.
Print Assumptions C07_frames.

(** ** C08 *)
(** Over every history that never sets mass or moment by hand, while the body is dynamic. *)
Theorem C08_mass_from_shapes : forall h, automatic h -> let b := body_after 0 0 h in let l := b_shapes b in
  b_type b = DYNAMIC ->
  b_m b = total_mass l /\
  (0 < total_mass l -> b_cog b = mean_cog l /\ b_i b = parallel_axis l (mean_cog l) /\
     b_minv b = / total_mass l /\ b_iinv b = / parallel_axis l (mean_cog l)).
Proof.
  intros h Ha b l Ht. destruct (history_mass h Ha Ht) as [H1 H2]. split; [exact H1|]. intros Hp.
  destruct (H2 Hp) as (H3 & H4 & H5 & H6). fold b in H1, H3, H4, H5, H6. fold l in H1, H3, H4.
  repeat match goal with |- _ /\ _ => split end; auto.
  - rewrite H5, H1. unfold Rdiv. ring.
  - rewrite H6, H4. unfold Rdiv. ring.
Qed.
(** The shape list is what the calls say: AddShape adds, RemoveShape removes exactly one occurrence. *)
Theorem C08_shape_list : forall b : Body R, 
  (forall s, b_shapes (b_add_shape b s) = b_shapes b ++ [s]) /\
  (forall k s, nth_error (b_shapes b) k = Some s -> Permutation (b_shapes b) (s :: b_shapes (b_remove_shape b k))).
Proof.
  intros b. split; [intros; apply add_shape_shapes|]. intros k s Hn. unfold b_remove_shape. rewrite Hn.
  assert (E : b_shapes (upd_shapes b (swap_remove (b_shapes b) k)) = swap_remove (b_shapes b) k) by reflexivity.
  assert (b_shapes (if (is_dynamic (upd_shapes b (swap_remove (b_shapes b) k)) && (nzero <? mi_m s)%num)%bool
     then b_accumulate (upd_shapes b (swap_remove (b_shapes b) k)) else upd_shapes b (swap_remove (b_shapes b) k)) = swap_remove (b_shapes b) k) as ->.
  { destruct (_ && _)%bool; auto. unfold b_accumulate. destruct (negb _); auto. destruct (acc_loop _) as [[? ?] ?].
    unfold b_set_position. match goal with |- context [b_activate ?x] => destruct (activate_eq x) as [? ->] end. reflexivity. }
  apply swap_remove_perm, Hn.
Qed.
(** SetMass and the geometry setters change the data of that one shape *)
Theorem C08_shape_setters : forall (b : Body R) k s, nth_error (b_shapes b) k = Some s ->
  (forall m, nth_error (b_shapes (b_shape_set_mass b k m)) k = Some (mkMI m (mi_i s) (mi_area s) (mi_cog s))) /\
  (forall i area cog, nth_error (b_shapes (b_shape_set_geometry b k i area cog)) k = Some (mkMI (mi_m s) i area cog)) /\
  (forall k' m, k' <> k -> nth_error (b_shapes (b_shape_set_mass b k m)) k' = nth_error (b_shapes b) k') /\
  (forall k' i area cog, k' <> k -> nth_error (b_shapes (b_shape_set_geometry b k i area cog)) k' = nth_error (b_shapes b) k').
Proof.
  intros b k s Hn.
  assert (Ac : forall x : Body R, b_shapes (b_accumulate x) = b_shapes x).
  { intros x. unfold b_accumulate. destruct (negb _); auto. destruct (acc_loop _) as [[? ?] ?].
    unfold b_set_position. match goal with |- context [b_activate ?x] => destruct (activate_eq x) as [? ->] end. reflexivity. }
  assert (L : forall (l : list (MassInfo R)) k x y, nth_error l k = Some y -> nth_error (list_set l k x) k = Some x).
  { induction l as [|h l IH]; intros [|k0] x y Hy; cbn in *; try discriminate; eauto. }
  assert (L2 : forall (l : list (MassInfo R)) k k' x, k' <> k -> nth_error (list_set l k x) k' = nth_error l k').
  { induction l as [|h l IH]; intros [|k0] [|k1] x Hk; cbn; auto; try congruence. }
  assert (Em : forall m, b_shapes (b_shape_set_mass b k m) = list_set (b_shapes b) k (mkMI m (mi_i s) (mi_area s) (mi_cog s))).
  { intros m. unfold b_shape_set_mass. rewrite Hn, Ac. destruct (activate_eq b) as [x ->]. reflexivity. }
  assert (Eg : forall i area cog, b_shapes (b_shape_set_geometry b k i area cog) = list_set (b_shapes b) k (mkMI (mi_m s) i area cog)).
  { intros i area cog. unfold b_shape_set_geometry. rewrite Hn. destruct (_ <? _)%num; [rewrite Ac|]; reflexivity. }
  split; [|split; [|split]]; intros; rewrite ?Em, ?Eg; eauto.
Qed.
(** independence of the order of the shapes *)
Theorem C08_order_independent : forall b b' : Body R, b_type b = DYNAMIC -> b_type b' = DYNAMIC ->
  Permutation (b_shapes b) (b_shapes b') -> 0 < total_mass (b_shapes b) ->
  let r := b_accumulate b in let r' := b_accumulate b' in
  b_m r = b_m r' /\ b_i r = b_i r' /\ b_cog r = b_cog r'.
Proof.
  intros b b' T T' P Hp. cbv zeta. pose proof Hp as Hp'. rewrite (total_perm _ _ P) in Hp'.
  destruct (accumulate_spec b T Hp) as (-> & -> & -> & _). destruct (accumulate_spec b' T' Hp') as (-> & -> & -> & _).
  rewrite (total_perm _ _ P), (mean_perm _ _ P), (parallel_perm _ _ _ P). auto.
Qed.
Theorem C08_accumulate_keeps_position : forall mass moment h, let b := body_after mass moment h in
  b_position (b_accumulate b) = b_position b.
Proof. intros. apply accumulate_position, after_aligned. Qed.
Example C08_nonvacuous : total_mass shapes2 = 3 /\ mean_cog shapes2 = mkV 2 2 /\ parallel_axis shapes2 (mkV 2 2) = 35.
Proof.
  assert (total_mass shapes2 = 3) as Em.
  { unfold total_mass, massive, shapes2; cbn. repeat (destruct (Rlt_dec _ _); cbn; try lra). }
  repeat split; auto.
  - unfold mean_cog. rewrite Em. unfold massive, shapes2; cbn. repeat (destruct (Rlt_dec _ _); cbn; try lra). apply vec_eq; cbn; field.
  - unfold parallel_axis, massive, shapes2, dist2; cbn. repeat (destruct (Rlt_dec _ _); cbn; try lra).
Qed.
Print Assumptions C08_mass_from_shapes. Print Assumptions C08_shape_setters.

(** ** C52 *)
Theorem C52_velocity_update : forall (b : Body R) g d dt, b_type b = DYNAMIC ->
  let b' := b_update_velocity b g d dt in
  b_v b' = vplus (vscale d (b_v b)) (vscale dt (vplus g (vscale (b_minv b) (b_f b)))) /\
  b_w b' = d * b_w b + dt * (b_iinv b * b_t b) /\ b_f b' = mkV 0 0 /\ b_t b' = 0 /\
  b_p b' = b_p b /\ b_a b' = b_a b /\ b_tr b' = b_tr b.
Proof. intros b g d dt H. apply update_velocity_dyn. congruence. Qed.
Theorem C52_position_update : forall (b : Body R) dt, let b' := b_update_position b dt in
  b_p b' = vplus (b_p b) (vscale dt (vplus (b_v b) (b_vbias b))) /\ b_a b' = b_a b + dt * (b_w b + b_wbias b) /\
  b_vbias b' = mkV 0 0 /\ b_wbias b' = 0 /\ b_v b' = b_v b /\ b_w b' = b_w b /\ b_f b' = b_f b /\ b_t b' = b_t b.
Proof.
  intros b dt b'. unfold b', b_update_position. repeat match goal with |- _ /\ _ => split end; try reflexivity.
  - apply vec_eq; unfold vplus, vscale; ub; unR; ring.
  - ub; unR; ring.
Qed.
(** any number of steps, closed form: a dynamic body in free fall (no damping) *)
Theorem C52_free_fall : forall g dt n (b : Body R), b_type b = DYNAMIC ->
  b_vbias b = mkV 0 0 -> b_wbias b = 0 -> b_f b = mkV 0 0 -> b_t b = 0 ->
  let b' := free_steps g 1 dt n b in
  b_v b' = vplus (b_v b) (vscale (INR n * dt) g) /\ b_w b' = b_w b /\
  b_p b' = vplus (b_p b) (vplus (vscale (INR n * dt) (b_v b)) (vscale (dt * dt * (INR n * (INR n - 1) / 2)) g)) /\
  b_a b' = b_a b + INR n * dt * b_w b.
Proof. intros g dt n b H1 H2 H3 H4 H5. destruct (free_fall g dt n b H1 H2 H3 H4 H5) as (A & B & C & D & _). exact (conj A (conj B (conj C D))). Qed.
(** kinematic bodies ignore gravity, damping and forces for any number of steps *)
Theorem C52_kinematic : forall g d dt n (b : Body R), b_type b = KINEMATIC -> b_vbias b = mkV 0 0 -> b_wbias b = 0 ->
  let b' := free_steps g d dt n b in
  b_v b' = b_v b /\ b_w b' = b_w b /\ b_p b' = vplus (b_p b) (vscale (INR n * dt) (b_v b)) /\
  b_a b' = b_a b + INR n * dt * b_w b.
Proof. intros g d dt n b H1 H2 H3. destruct (kinematic_flight g d dt n b H1 H2 H3) as (A & B & _ & _ & C & D & _). exact (conj A (conj B (conj C D))). Qed.
Theorem C52_kinematic_velocity_binary64 : forall (b : Body F) g d dt, b_type b = KINEMATIC -> b_update_velocity b g d dt = b.
Proof. intros b g d dt H. unfold b_update_velocity, is_kinematic. rewrite H. reflexivity. Qed.
Example C52_nonvacuous : b_type (b_new 1 1) = DYNAMIC /\ b_vbias (b_new 1 1) = mkV 0 0 /\ b_wbias (b_new (T:=R) 1 1) = 0 /\
  b_f (b_new 1 1) = mkV 0 0 /\ b_t (b_new (T:=R) 1 1) = 0 /\ b_type (b_set_type (b_new 1 1) KINEMATIC) = KINEMATIC.
Proof.
  pose proof MaxFloat_big. assert (T : b_type (b_new 1 1) = DYNAMIC) by (apply new_type; lra).
  split; [exact T|]. unfold b_set_type. rewrite T. unfold b_type. cbn [upd_vel upd_moment upd_mass upd_idle b_idle b_m]. rewrite zero_not_inf.
  unfold b_new, b_set_angle. match goal with |- context [b_activate ?x] => destruct (activate_eq x) as [? ->] end.
  unfold b_set_moment. match goal with |- context [b_activate ?x] => destruct (activate_eq x) as [? ->] end.
  unfold b_set_mass. match goal with |- context [b_activate ?x] => destruct (activate_eq x) as [? ->] end.
  repeat match goal with |- _ /\ _ => split end; try reflexivity.
  unR. destruct (Reqb MaxFloat64 MaxFloat64) eqn:E; auto. rbool. congruence.
Qed.
Print Assumptions C52_free_fall.

(** ** C56.  KineticEnergy returns m|v|^2 + i w^2 (twice the physical energy), as Chipmunk does. *)
Theorem C56_value : forall b : Body R, b_kinetic_energy b = b_m b * norm2 (b_v b) + b_i b * (b_w b * b_w b).
Proof. exact ke_value. Qed.
Theorem C56_nonneg : forall b : Body R, 0 <= b_m b -> 0 <= b_i b -> 0 <= b_kinetic_energy b.
Proof. exact ke_nonneg. Qed.
Theorem C56_zero_iff_rest : forall b : Body R, 0 < b_m b -> 0 < b_i b ->
  (b_kinetic_energy b = 0 <-> b_v b = mkV 0 0 /\ b_w b = 0).
Proof. exact ke_zero_iff. Qed.
(** binary64: at rest the result is +0 whatever the mass and moment, infinite and NaN included *)
Theorem C56_rest_binary64 : forall (b : Body F) s1 s2 s3,
  b_v b = mkV (B754_zero s1) (B754_zero s2) -> b_w b = B754_zero s3 -> b_kinetic_energy b = B754_zero false.
Proof.
  intros b s1 s2 s3 Hv Hw. unfold b_kinetic_energy. rewrite Hv, Hw. destruct s1, s2, s3; vm_compute; reflexivity.
Qed.
(** the infinite-mass body at rest that the guard is there for *)
Example C56_nonvacuous : b_kinetic_energy (upd_moment (upd_mass (mkBody (B754_zero false) (B754_zero false) (B754_zero false) (B754_zero false)
   vzero vzero vzero vzero (B754_zero false) (B754_zero false) (B754_zero false) t_identity vzero (B754_zero false) [] (B754_zero false))
   (B754_infinity false) (B754_zero false)) (B754_infinity false) (B754_zero false)) = B754_zero false /\
  Fmul (B754_zero false) (B754_infinity false) = B754_nan.
Proof. split; vm_compute; reflexivity. Qed.
Print Assumptions C56_zero_iff_rest.
Print Assumptions C56_rest_binary64.
