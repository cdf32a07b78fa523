(** Properties C01-C06: boxes, vectors, transforms. *)
From Coq Require Import Reals ZArith Bool Lra.
From Verif Require Import Num Spec.
From Verif.Model Require Import Vector BB Transform.
From Verif.Proofs Require Import RTac BBOrder Geom.

(** ** C01 (binary64, exact). *)
Theorem C01_intersects_iff_common_point : forall a b : BB F, ordered a -> ordered b ->
  (bb_intersects a b = true <-> exists p : Vec F, in_box a p /\ in_box b p).
Proof. exact intersects_iff. Qed.
Theorem C01_intersects_symmetric : forall a b : BB F, bb_intersects a b = bb_intersects b a.
Proof. exact intersects_sym. Qed.
Theorem C01_contains_vect_iff : forall (a : BB F) (v : Vec F), bb_contains_vect a v = true <-> in_box a v.
Proof. exact contains_vect_iff. Qed.
Theorem C01_contains_iff_subset : forall a o : BB F, ordered o ->
  (bb_contains a o = true <-> forall p : Vec F, in_box o p -> in_box a p).
Proof. exact contains_iff. Qed.
(** the same over the reals *)
Theorem C01_intersects_iff_common_point_R : forall a b : BB R, ordered a -> ordered b ->
  (bb_intersects a b = true <-> exists p : Vec R, in_box a p /\ in_box b p).
Proof. exact intersects_iff. Qed.
Definition fbox (l b r t : Z) : BB F := mkBB (Flit l 1) (Flit b 1) (Flit r 1) (Flit t 1).
Example C01_nonvacuous : ordered (fbox 0 0 2 2) /\ ordered (fbox 2 1 3 5) /\
  bb_intersects (fbox 0 0 2 2) (fbox 2 1 3 5) = true /\ bb_intersects (fbox 0 0 2 2) (fbox 3 1 4 5) = false.
Proof. repeat split; vm_compute; reflexivity. Qed.
Print Assumptions C01_intersects_iff_common_point.

(** ** C02 (binary64, exact). *)
Theorem C02_merge_least_upper_bound : forall a b : BB F, ok_box a -> ok_box b ->
  bb_contains (bb_merge a b) a = true /\ bb_contains (bb_merge a b) b = true /\
  forall c, bb_contains c a = true -> bb_contains c b = true -> bb_contains c (bb_merge a b) = true.
Proof.
  exact (fun a b Ha Hb => conj (proj2 (contains_subbox _ _) (merge_l a b Ha Hb))
    (conj (proj2 (contains_subbox _ _) (merge_r a b Ha Hb))
    (fun c Hc Hd => proj2 (contains_subbox _ _) (merge_least a b c (proj1 (contains_subbox _ _) Hc) (proj1 (contains_subbox _ _) Hd))))).
Qed.
Theorem C02_expand_least : forall (a : BB F) (v : Vec F), ok_box a -> ok_vec v ->
  bb_contains (bb_expand a v) a = true /\ bb_contains_vect (bb_expand a v) v = true /\
  forall c, bb_contains c a = true -> bb_contains_vect c v = true -> bb_contains c (bb_expand a v) = true.
Proof.
  exact (fun a v Ha Hv => conj (proj2 (contains_subbox _ _) (expand_box a v Ha Hv))
    (conj (proj2 (contains_vect_iff _ _) (expand_vec a v Ha Hv))
    (fun c Hc Hd => proj2 (contains_subbox _ _) (expand_least a v c (proj1 (contains_subbox _ _) Hc) (proj1 (contains_vect_iff _ _) Hd))))).
Qed.
Theorem C02_contains_refl : forall a : BB F, ok_box a -> bb_contains a a = true.
Proof. exact (fun a H => proj2 (contains_subbox _ _) (subbox_refl a H)). Qed.
Theorem C02_contains_trans : forall a b c : BB F,
  bb_contains a b = true -> bb_contains b c = true -> bb_contains a c = true.
Proof.
  exact (fun a b c H1 H2 => proj2 (contains_subbox _ _)
    (subbox_trans c b a (proj1 (contains_subbox _ _) H2) (proj1 (contains_subbox _ _) H1))).
Qed.
Example C02_nonvacuous : ok_box (fbox 0 0 2 2) /\ ok_box (fbox (-3) 1 1 7) /\
  bb_contains (fbox (-3) 0 2 7) (bb_merge (fbox 0 0 2 2) (fbox (-3) 1 1 7)) = true /\
  bb_contains (fbox (-2) 0 2 7) (bb_merge (fbox 0 0 2 2) (fbox (-3) 1 1 7)) = false.
Proof. repeat split; vm_compute; reflexivity. Qed.
Print Assumptions C02_merge_least_upper_bound.

Open Scope R_scope.
(** ** C03 (reals). [seg_point a b s] is a + s(b-a). *)
Theorem C03_segment_query_first_hit : forall (x : BB R) (a b : RV), ordered x ->
  (exists s, 0 <= s <= 1 /\ in_box x (seg_point a b s)) ->
  let t := bb_segment_query x a b in
  0 <= t <= 1 /\ in_box x (seg_point a b t) /\
  forall s, 0 <= s <= 1 -> in_box x (seg_point a b s) -> t <= s.
Proof. exact bb_segment_query_hit. Qed.
Theorem C03_segment_query_miss : forall (x : BB R) (a b : RV), ordered x ->
  ~ (exists s, 0 <= s <= 1 /\ in_box x (seg_point a b s)) ->
  bb_segment_query x a b = MaxFloat64.
Proof. exact bb_segment_query_miss. Qed.
Theorem C03_intersects_segment_iff : forall (x : BB R) (a b : RV), ordered x ->
  (bb_intersects_segment x a b = true <-> exists p, on_segment a b p /\ in_box x p).
Proof. exact bb_intersects_segment_iff. Qed.
Example C03_nonvacuous : ordered (mkBB 1 0 2 1) /\
  (exists s, 0 <= s <= 1 /\ in_box (mkBB 1 0 2 1) (seg_point (mkV 0 0) (mkV 4 1) s)).
Proof.
  split; [apply ordered_R; cbn; lra|]. exists (1/2). split; [lra|].
  apply in_box_R; unfold seg_point; cbn; lra.
Qed.
Print Assumptions C03_segment_query_first_hit.

(** ** C04 *)
Theorem C04_clamp_vect_in_box_float : forall (x : BB F) (v : Vec F), ordered x -> ok_vec v -> in_box x (bb_clamp_vect x v).
Proof. exact clamp_vect_in. Qed.
Theorem C04_clamp_vect_nearest : forall (x : BB R) (v q : RV), ordered x -> in_box x q ->
  in_box x (bb_clamp_vect x v) /\ dist v (bb_clamp_vect x v) <= dist v q.
Proof.
  exact (fun x v q Ho Hq => conj (clamp_vect_in x v Ho (conj I I))
    (sqrt_le_1_alt _ _ (clamp_vect_nearest x v q Ho Hq))).
Qed.
Theorem C04_wrap_vect : forall (x : BB R) (v : RV), bl x < br x -> bb x < bt x ->
  (bl x < vx (bb_wrap_vect x v) <= br x /\ exists k : Z, vx (bb_wrap_vect x v) = vx v + IZR k * (br x - bl x)) /\
  (bb x < vy (bb_wrap_vect x v) <= bt x /\ exists k : Z, vy (bb_wrap_vect x v) = vy v + IZR k * (bt x - bb x)).
Proof. exact (fun x v H1 H2 => conj (wrap1_spec (vx v) (bl x) (br x) H1) (wrap1_spec (vy v) (bb x) (bt x) H2)). Qed.
Example C04_nonvacuous : let x := mkBB (-1) (-1) 3 2 in bl x < br x /\ bb x < bt x /\ ordered x.
Proof. cbn; split; [lra|]; split; [lra|]. apply ordered_R; cbn; lra. Qed.
Print Assumptions C04_wrap_vect.

(** ** C05 *)
Theorem C05_rotate_unrotate_inverse : forall v r : RV, unit r ->
  vunrotate (vrotate v r) r = v /\ vrotate (vunrotate v r) r = v.
Proof. exact (fun v r H => conj (rotate_unrotate v r H) (unrotate_rotate v r H)). Qed.
Theorem C05_rotate_isometry : forall v w r : RV, unit r ->
  inner (vrotate v r) (vrotate w r) = inner v w.
Proof. exact rotate_inner. Qed.
Theorem C05_forangle_unit_and_additive : forall a b : R,
  unit (vforangle a) /\ vrotate (vforangle a) (vforangle b) = vforangle (a + b).
Proof. exact (fun a b => conj (forangle_unit a) (forangle_add a b)). Qed.
Theorem C05_perp_quarter_turn : forall v : RV,
  vrperp (vperp v) = v /\ vperp (vrperp v) = v /\ inner v (vperp v) = 0 /\ norm2 (vperp v) = norm2 v /\
  vcross v (vperp v) = norm2 v.
Proof.
  intros [x y]. unfold vrperp, vperp, inner, norm2, vcross; unR; cbn [vx vy].
  repeat split; try (apply vec_eq; cbn [vx vy]); ring.
Qed.
Theorem C05_normalize : forall v : RV,
  norm (vnormalize v) < 1 /\ (exists k, 0 < k /\ vnormalize v = vscale k v) /\
  norm (vnormalize v) = norm v / (norm v + 1 / 1000000000000000).
Proof.
  exact (fun v => conj (normalize_norm_lt v) (conj (ex_intro _ _ (conj (normalize_scale v) (normalize_eq v))) (normalize_norm v))).
Qed.
Theorem C05_clamp_length : forall (v : RV) (len : R), 0 <= len ->
  norm (vclamp v len) <= len /\ (norm v <= len -> vclamp v len = v) /\
  exists k, 0 <= k <= 1 /\ vclamp v len = vscale k v.
Proof. exact (fun v len H => conj (vclamp_norm v len H) (conj (vclamp_short v len) (vclamp_dir v len H))). Qed.
Theorem C05_lerp_const_no_overshoot : forall f1 f2 d : R, 0 <= d ->
  (f1 <= f2 -> f1 <= nlerpconst f1 f2 d <= f2) /\ (f2 <= f1 -> f2 <= nlerpconst f1 f2 d <= f1) /\
  Rabs (nlerpconst f1 f2 d - f1) <= d /\ (Rabs (f2 - f1) <= d -> nlerpconst f1 f2 d = f2).
Proof. exact lerpconst_spec. Qed.
Theorem C05_closest_point_on_segment : forall p a b : RV, a <> b ->
  on_segment b a (closest_point_on_segment p a b) /\
  forall q, on_segment a b q -> dist p (closest_point_on_segment p a b) <= dist p q.
Proof.
  exact (fun p a b H => conj (closest_point_on p a b)
    (fun q Hq => sqrt_le_1_alt _ _ (closest_point_nearest p a b q H Hq))).
Qed.
Theorem C05_closest_dist_to_origin : forall a b : RV, a <> b ->
  on_segment a b (vlerp_t a b (closest_t a b)) /\
  forall q, on_segment a b q -> closest_dist a b <= norm2 q.
Proof.
  intros a b H. split; [|exact (fun q Hq => closest_dist_nearest a b q H Hq)].
  exists ((1 + closest_t a b) / 2). pose proof (closest_t_range a b). split; [lra | apply lerp_t_seg].
Qed.
Example C05_nonvacuous : unit (mkV (3/5) (4/5)) /\ mkV 0 0 <> (mkV 1 2 : RV).
Proof. split; [unfold unit, norm2; cbn; lra | intros H; injection H; lra]. Qed.
Print Assumptions C05_closest_point_on_segment.

(** ** C06 *)
Theorem C06_inverse_two_sided : forall (t : Transform R) (p : RV), ta t * td t - tc t * tb t <> 0 ->
  t_point (t_inverse t) (t_point t p) = p /\ t_point t (t_point (t_inverse t) p) = p.
Proof. exact (fun t p H => conj (inverse_l t p H) (inverse_r t p H)). Qed.
Theorem C06_mult_is_composition : forall (s t : Transform R) (p : RV),
  t_point (t_mult s t) p = t_point s (t_point t p).
Proof. exact mult_point. Qed.
(** [rigid t]: rotation part of unit determinant form (a,b;-b,a), a^2+b^2=1 *)
Theorem C06_rigid_inverse : forall (t : Transform R) (p : RV),
  td t = ta t -> tc t = - tb t -> ta t * ta t + tb t * tb t = 1 ->
  t_point (t_rigid_inverse t) (t_point t p) = p /\ t_point t (t_point (t_rigid_inverse t) p) = p.
Proof.
  exact (fun t p H1 H2 H3 => conj (rigid_inverse_l t p (conj H1 (conj H2 H3))) (rigid_inverse_r t p (conj H1 (conj H2 H3)))).
Qed.
Theorem C06_rigid_preserves_distance : forall (v : RV) (a : R) (p q : RV),
  dist (t_point (t_rigid v a) p) (t_point (t_rigid v a) q) = dist p q.
Proof. exact (fun v a p q => f_equal sqrt (rigid_dist (t_rigid v a) p q (t_rigid_rigid v a))). Qed.
Theorem C06_bb_least_enclosing : forall (t : Transform R) (x : BB R), ordered x ->
  (forall p, in_box x p -> in_box (t_bb t x) (t_point t p)) /\
  (forall c, (forall p, in_box x p -> in_box c (t_point t p)) -> bb_contains c (t_bb t x) = true).
Proof.
  exact (fun t x H => conj (t_bb_encloses t x)
    (fun c Hc => proj2 (contains_subbox _ _) (t_bb_tight t x c H Hc))).
Qed.
Example C06_nonvacuous : let t := mkT 2 1 0 3 5 (-1) in ta t * td t - tc t * tb t <> 0.
Proof. cbn; lra. Qed.
Print Assumptions C06_bb_least_enclosing.
