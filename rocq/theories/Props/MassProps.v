(** C48 (integrals), C107-C111: the mass properties of shapes *)
From Coq Require Import Reals ZArith Bool List Lra Lia.
From Flocq Require Import IEEE754.BinarySingleNaN.
From Verif Require Import Num Spec SpecMass SpecShapeMass SpecShapes.
From Verif.Model Require Import Vector BB Transform Body Shapes ShapeMass.
From Verif.Proofs Require Import RTac Geom MassPf MassInt.
Import ListNotations.
Local Open Scope R_scope.

(** ** C48: area, centroid and moment are the integrals they should be *)
Theorem C48_area_is_integral : forall vs A, polygon_integral (fun _ => 1) vs A -> area_for_poly vs 0 = A.
Proof. exact area_integral. Qed.
Theorem C48_centroid_is_integral : forall vs A X Y, polygon_integral (fun _ => 1) vs A -> polygon_integral (@vx R) vs X -> polygon_integral (@vy R) vs Y -> A <> 0 ->
  centroid_for_poly vs = mkV (X / A) (Y / A).
Proof. exact centroid_integral. Qed.
Theorem C48_moment_is_integral : forall (m : R) vs o r A J, length vs <> 2%nat ->
  polygon_integral (fun _ => 1) (map (vplus o) vs) A -> polygon_integral norm2 (map (vplus o) vs) J -> A <> 0 -> moment_for_poly m vs o r = m * J / A.
Proof. exact moment_integral. Qed.
(** the integrals exist for every polygon *)
Theorem C48_integrals_exist : forall vs, (exists A, polygon_integral (fun _ => 1) vs A) /\ (exists X, polygon_integral (@vx R) vs X) /\
  (exists Y, polygon_integral (@vy R) vs Y) /\ (exists J, polygon_integral norm2 vs J).
Proof.
  intros vs. split; [|split; [|split]]; eexists; apply polygon_exists; [exact t1|exact tx|exact ty|exact t2].
Qed.
(** circles and rings; the two arguments are radii, not the "diameters" of the comment *)
Theorem C48_circle_is_integral : forall r1 r2 A, 0 <= r1 <= r2 -> ring_integral (fun _ => 1) r1 r2 A -> area_for_circle r1 r2 = A.
Proof. exact ring_area. Qed.
Theorem C48_circle_moment_is_integral : forall (m r1 r2 A J : R) o, 0 <= r1 < r2 -> ring_integral (fun _ => 1) r1 r2 A -> ring_integral (fun rho => rho * rho) r1 r2 J ->
  moment_for_circle m r1 r2 o = m * J / A + m * norm2 o.
Proof. exact ring_moment. Qed.
Example C48_integral_nonvacuous : polygon_integral norm2 [mkV 0 0; mkV 2 0; mkV 2 2; mkV 0 2] (32 / 3) /\ polygon_integral (fun _ => 1) [mkV 0 0; mkV 2 0; mkV 2 2; mkV 0 2] 4.
Proof.
  split; [replace (32 / 3) with (esum h2 (edges [mkV 0 0; mkV 2 0; mkV 2 2; mkV 0 2])); [apply polygon_exists, t2|]|
          replace 4 with (esum h1 (edges [mkV 0 0; mkV 2 0; mkV 2 2; mkV 0 2])); [apply polygon_exists, t1|]];
  unfold esum, edges, h1, h2, crs, inner; cbn; field.
Qed.

(** ** C107: whatever setters are called, a shape has the mass properties of a new shape with its geometry and mass *)
Lemma area_geo m g : mi_area (geo_info m g) = area_of g.
Proof.
  destruct g as [c r|a b r|vs r]; cbn [geo_info circle_mass_info segment_mass_info poly_mass_info mi_area area_of]; [| |reflexivity].
  - unfold area_for_circle. unR. replace (0 * 0 - r * r) with (- (r * r)) by ring. rewrite Rabs_Ropp, Rabs_pos_eq by nra. reflexivity.
  - unfold area_for_segment. unR. change (vdist a b) with (dist a b). ring.
Qed.
Theorem C107_setters_as_constructed : forall os g m, (forall o, In o os -> ~ rounds_polygon g o) ->
  let '(g', m') := history g m os in fold_left do_shape os (mkMS g (geo_info m g)) = mkMS g' (geo_info m' g').
Proof.
  induction os as [|o os IH]; intros g m N; cbn [history fold_left]; [reflexivity|].
  assert (E : do_shape (mkMS g (geo_info m g)) o = mkMS (geometry g o) (geo_info (mass_after g m o) (geometry g o))).
  { assert (Nr : ~ rounds_polygon g o) by (apply N; now left). destruct o; cbn [do_shape geometry mass_after].
    - unfold set_mass. cbn [ms_geo ms_info]. destruct g; reflexivity.
    - unfold set_density, set_mass. cbn [ms_geo ms_info]. unR. rewrite (area_geo m g) at 1. destruct g; reflexivity.
    - destruct g; [reflexivity|reflexivity|]. exfalso. apply Nr. exact Logic.I.
    - destruct g; reflexivity.
    - destruct g; reflexivity. }
  rewrite E. apply IH. intros o' Ho' X. apply (N o'); [now right|]. destruct g, o, o'; cbn in *; auto.
Qed.
(** and what a constructor gives: the mass it is told, the area, the centre of gravity, and the moment of a unit mass about that centre *)
Theorem C107_circle : forall (m r : R) c A J, 0 < r -> ring_integral (fun _ => 1) 0 r A -> ring_integral (fun rho => rho * rho) 0 r J ->
  geo_info m (GCircle c r) = mkMI m (J / A) A c.
Proof.
  intros m r c A J Hr HA HJ. cbn [geo_info]. unfold circle_mass_info. unR.
  rewrite (ring_area 0 r A) by (lra || exact HA). rewrite (ring_moment 1 0 r A J) by (lra || assumption). f_equal.
  unfold norm2, vzero. unR. cbn [vx vy]. unfold Rdiv. ring.
Qed.
Theorem C107_polygon : forall (m : R) vs A X Y J, length vs <> 2%nat -> polygon_integral (fun _ => 1) vs A -> A <> 0 ->
  polygon_integral (@vx R) vs X -> polygon_integral (@vy R) vs Y ->
  let c := mkV (X / A) (Y / A) in
  polygon_integral (fun _ => 1) (map (vplus (vscale (-1) c)) vs) A -> polygon_integral norm2 (map (vplus (vscale (-1) c)) vs) J ->
  geo_info m (GPoly vs 0) = mkMI m (J / A) A c.
Proof.
  intros m vs A X Y J L HA NA HX HY c HA' HJ. cbn [geo_info]. unfold poly_mass_info.
  rewrite (area_integral vs A HA), (centroid_integral vs A X Y HA HX HY NA). fold c.
  assert (E : vneg c = vscale (-1) c) by (apply vec_eq; unfold vneg, vscale; unR; cbn [vx vy]; ring). rewrite E. unR.
  rewrite (moment_integral 1 vs (vscale (-1) c) 0 A J L HA' HJ NA). f_equal. unfold Rdiv. ring.
Qed.
Theorem C107_segment : forall (m r : R) a b, geo_info m (GSegment a b r) =
  mkMI m (((dist a b + 2 * r) * (dist a b + 2 * r) + 2 * r * (2 * r)) / 12) (PI * (r * r) + 2 * r * dist a b) (vscale (/ 2) (vplus a b)).
Proof.
  intros m r a b. cbn [geo_info]. unfold segment_mass_info, moment_for_box, area_for_segment. change (vdist a b) with (dist a b). unR. f_equal.
  - field.
  - ring.
  - apply vec_eq; unfold vlerp, vadd, vmult, vscale, vplus; unR; cbn [vx vy]; field.
Qed.
Example C107_nonvacuous : let os := [SSetDensity 2; SSetEndpoints (mkV 0 0) (mkV 3 4); SSetRadius 1; SSetMass 7] in let g := GSegment (mkV 0 0) (mkV 1 0) 0 in
  (forall o, In o os -> ~ rounds_polygon g o) /\ history g 0 os = (GSegment (mkV 0 0) (mkV 3 4) 1, 7).
Proof. cbv zeta. split; [|reflexivity]. intros o _ X. exact X. Qed.

(** ** C108: PolyShape.SetRadius leaves the area, and so the mass a density gives, of the old radius *)
Theorem C108_poly_radius_refuted : forall vs r, 0 < r -> let s := do_shape (new_shape (GPoly vs 0)) (SSetRadius r) in
  ms_geo s = GPoly vs r /\ mi_area (ms_info s) < area_of (GPoly vs r) /\
  (forall d, 0 < d -> mi_m (ms_info (set_density s d)) < d * area_of (GPoly vs r)).
Proof.
  intros vs r Hr s. split; [reflexivity|].
  assert (L : mi_area (ms_info s) < area_of (GPoly vs r)).
  { unfold s, new_shape, do_shape, set_radius. cbn [ms_geo ms_info geo_info poly_mass_info mi_area area_of]. unR. rewrite !area_eq.
    assert (P : 0 <= esum dist (edges vs)).
    { unfold esum. induction (edges vs) as [|e l IH]; cbn [map rsum fold_right]; [apply Rle_refl|]. apply Rplus_le_le_0_compat; [apply sqrt_pos|exact IH]. }
    pose proof PI_RGT_0. rewrite (Rabs_pos_eq r) by lra. assert (0 < r * (PI * r)) by (apply Rmult_lt_0_compat; [|apply Rmult_lt_0_compat]; lra). assert (0 <= r * esum dist (edges vs)) by (apply Rmult_le_pos; lra). lra. }
  split; [exact L|]. intros d Hd. unfold set_density, set_mass. cbn [ms_info mi_m]. unR. apply Rmult_lt_compat_l; assumption.
Qed.

(** ** C109: SetDensity sets the mass to density times area, and Density reads it back *)
Theorem C109_density : forall (s : MShape R) d, let s' := set_density s d in
  mi_m (ms_info s') = d * mi_area (ms_info s) /\ (mi_area (ms_info s) <> 0 -> density s' = d) /\
  ms_geo s' = ms_geo s /\ mi_i (ms_info s') = mi_i (ms_info s) /\ mi_area (ms_info s') = mi_area (ms_info s) /\ mi_cog (ms_info s') = mi_cog (ms_info s).
Proof.
  intros s d s'. unfold s', set_density, set_mass, density. cbn [ms_info ms_geo mi_m mi_i mi_area mi_cog]. unR.
  split; [reflexivity|]. split; [|repeat split; reflexivity]. intros N. field. exact N.
Qed.

(** ** C110: the moments of boxes, segments and polygons agree *)
Theorem C110_box_is_polygon : forall (m : R) (b : BB R) r, bl b < br b -> bb b < bt b -> moment_for_poly m (box_verts b) (mkV 0 0) r = moment_for_box2 m b.
Proof.
  intros m [l bo ri t] r H1 H2. cbn [bl bb br bt] in *. unfold box_verts, moment_for_box2, moment_for_box. cbn [bl bb br bt].
  rewrite moment_eq; [|cbn; lia|].
  - unfold esum, edges, mq, crs, inner, vplus, vlensq, vdot, vmult. unR. cbn. field. nra.
  - unfold esum, edges, crs. cbn. nra.
Qed.
Theorem C110_new_box : forall w h r : R, 0 < w -> 0 < h -> let i := ms_info (new_box w h r) in
  mi_m i = 0 /\ mi_i i = moment_for_box 1 w h /\ mi_cog i = mkV 0 0 /\ (0 <= r -> mi_area i = w * h + r * (2 * w + 2 * h) + PI * r * r).
Proof.
  intros w h r Hw Hh i. unfold i, new_box, new_box2, new_shape. cbn [ms_info geo_info poly_mass_info mi_m mi_i mi_cog mi_area].
  assert (C : centroid_for_poly (box_verts (mkBB (- (w / ntwo))%num (- (h / ntwo))%num (w / ntwo)%num (h / ntwo)%num)) = mkV 0 0).
  { rewrite centroid_eq. unfold esum, edges, cx, cy, crs, box_verts. unR. cbn. apply vec_eq; cbn [vx vy]; field; nra. }
  split; [reflexivity|]. split; [|split; [exact C|]].
  - rewrite C. assert (E : vneg (mkV 0 0) = mkV 0 0) by (apply vec_eq; unfold vneg; unR; cbn [vx vy]; ring). rewrite E.
    rewrite C110_box_is_polygon by (unR; cbn [bl br bb bt]; lra). unfold moment_for_box2, moment_for_box, vlensq, vdot, vmult. unR. cbn [bl br bb bt vx vy]. field.
  - intros Hr. rewrite area_eq. unfold esum, edges, box_verts, crs, dist, dist2. unR. cbn.
    rewrite (Rabs_pos_eq r) by exact Hr.
    assert (Q1 : forall x y u, 0 <= u -> x * x + y * y = u * u -> sqrt (x * x + y * y) = u) by (intros x y u Hu ->; apply sqrt_square, Hu).
    rewrite (Q1 (w / 2 - w / 2) (- (h / 2) - h / 2) h) by (lra || field).
    rewrite (Q1 (w / 2 - - (w / 2)) (h / 2 - h / 2) w) by (lra || field).
    rewrite (Q1 (- (w / 2) - - (w / 2)) (h / 2 - - (h / 2)) h) by (lra || field).
    rewrite (Q1 (- (w / 2) - w / 2) (- (h / 2) - - (h / 2)) w) by (lra || field). field.
Qed.
(** a segment's own moment (about its middle) is MomentForSegment less the offset of the middle *)
Theorem C110_segment : forall (m : R) a b r, let i := segment_mass_info m a b r in
  moment_for_segment 1 a b r = mi_i i + norm2 (mi_cog i) /\ mi_cog i = vscale (/ 2) (vplus a b).
Proof.
  intros m a b r i. unfold i, segment_mass_info. cbn [mi_i mi_cog]. split.
  - unfold moment_for_segment, moment_for_box. assert (D : vdist b a = vdist a b) by (unfold vdist, vlen, vlensq, vdot, vsub; unR; cbn [vx vy]; f_equal; ring). rewrite D. unfold vlensq, vdot, norm2. unR. field.
  - apply vec_eq; unfold vlerp, vadd, vmult, vscale, vplus; unR; cbn [vx vy]; field.
Qed.

(** ** C111: taking the last massive shape off a dynamic body leaves it with an infinite inverse mass:
    binary64, any sine and cosine, no forces, no gravity — the next step makes its velocity NaN *)
Definition unit_info : MassInfo F := mkMI (nlit 1 1) (nlit 1 1) (nlit 1 1) vzero.
Theorem C111_last_massive_shape_refuted : forall (tr : Trig F) g damping dt,
  let b := b_remove_shape (b_add_shape (b_new (nlit 1 1) (nlit 1 1)) unit_info) 0 in
  b_type b = DYNAMIC /\ b_shapes b = [] /\ Fis_nan (vx (b_v (b_update_velocity b g damping dt))) = true /\ Fis_nan (vy (b_v (b_update_velocity b g damping dt))) = true.
Proof.
  intros tr g damping dt b. assert (T : b_type b = DYNAMIC) by (vm_compute; reflexivity). split; [exact T|]. split; [vm_compute; reflexivity|].
  assert (M : b_minv b = B754_infinity false) by (vm_compute; reflexivity). assert (Ff : b_f b = mkV (B754_zero false) (B754_zero false)) by (vm_compute; reflexivity).
  unfold b_update_velocity, is_kinematic. rewrite T. cbn [upd_force upd_vel b_v]. rewrite M, Ff. unfold vadd, vmult. cbn [vx vy].
  assert (N : nmul (B754_zero false : F) (B754_infinity false) = B754_nan) by (vm_compute; reflexivity). rewrite N.
  assert (A : forall x : F, nadd x (B754_nan : F) = (B754_nan : F)) by (intros [| | |]; reflexivity).
  assert (K : forall x : F, nmul (B754_nan : F) x = (B754_nan : F)) by (intros [| | |]; reflexivity).
  rewrite (A (vx g)), (A (vy g)), (K dt). split; rewrite A; reflexivity.
Qed.

Print Assumptions C48_area_is_integral. Print Assumptions C48_centroid_is_integral. Print Assumptions C48_moment_is_integral. Print Assumptions C48_integrals_exist.
Print Assumptions C48_circle_is_integral. Print Assumptions C48_circle_moment_is_integral. Print Assumptions C107_setters_as_constructed. Print Assumptions C107_circle. Print Assumptions C107_polygon. Print Assumptions C107_segment. Print Assumptions C108_poly_radius_refuted.
Print Assumptions C109_density. Print Assumptions C110_box_is_polygon. Print Assumptions C110_new_box. Print Assumptions C110_segment. Print Assumptions C111_last_massive_shape_refuted.
