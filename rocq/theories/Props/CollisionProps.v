(** Properties C39-C43, C53, C81-C83: the narrow phase. *)
From Coq Require Import Reals ZArith NArith Bool List Lra Lia.
From Flocq Require Import IEEE754.BinarySingleNaN.
From Verif Require Import Num Spec SpecShapes SpecCollide.
From Verif.Model Require Import Vector BB Transform Shapes Collision.
From Verif.Proofs Require Import RTac Geom ShapePf ShapePf2 FloatFlip CollTermPf GjkPf GjkPf2 GjkPf3 CollPf.
Import ListNotations.

(** ** C40, C41: in binary64, NaN and infinities included, and over the reals, for every cached id. *)
Theorem C41_gjk_returns : forall (a b : CShape F) id, exists pts fl, gjk a b id = Some (pts, fl).
Proof. intros a b id. destruct (gjk a b id) as [[pts fl]|] eqn:E; [eauto|]. exfalso. revert E. apply gjk_some. exact no_double_flip_F. Qed.
Theorem C41_gjk_returns_ideal : forall (a b : CShape R) id, exists pts fl, gjk a b id = Some (pts, fl).
Proof. intros a b id. destruct (gjk a b id) as [[pts fl]|] eqn:E; [eauto|]. exfalso. revert E. apply gjk_some. exact no_double_flip_R. Qed.
Theorem C40_collide_total : forall (a b : CShape F) id, exists swapped info, collide a b id = Some (swapped, info) /\ (length (ci_arr info) <= 2)%nat.
Proof. intros. apply collide_some. exact no_double_flip_F. Qed.
Theorem C40_collide_total_ideal : forall (a b : CShape R) id, exists swapped info, collide a b id = Some (swapped, info) /\ (length (ci_arr info) <= 2)%nat.
Proof. intros. apply collide_some. exact no_double_flip_R. Qed.
(** the shapes are exchanged exactly when their classes are out of order *)
Theorem C40_swap : forall (a b : CShape F) id sw info, collide a b id = Some (sw, info) -> (sw = true <-> (order (cs_class b) < order (cs_class a))%nat).
Proof.
  intros a b id sw info. unfold collide. destruct (order (cs_class b) <? order (cs_class a))%nat eqn:E; (destruct (nth_error builtin _); [|discriminate]);
  match goal with |- option_map _ ?c = _ -> _ => destruct c end; try discriminate; cbn [option_map]; intros [= <- <-].
  - apply Nat.ltb_lt in E. tauto.
  - apply Nat.ltb_ge in E. split; [discriminate|lia].
Qed.
Print Assumptions C40_collide_total.

(** ** C39: circles and capsules *)
Theorem C39_circles : forall c1 r1 c2 r2 id, 0 <= r1 -> 0 <= r2 ->
  exists info, circle_to_circle c1 r1 c2 r2 (mkCI id (mkV 0 0) []) = Some info /\
  (r1 + r2 <= dist c1 c2 -> ci_arr info = []) /\
  (dist c1 c2 < r1 + r2 -> unit (ci_n info) /\ vminus c2 c1 = vscale (dist c1 c2) (ci_n info) /\
     exists p1 p2, ci_arr info = [mkCC p1 p2 0] /\ p1 = vplus c1 (vscale r1 (ci_n info)) /\ p2 = vplus c2 (vscale (- r2) (ci_n info)) /\
       dist p1 c1 = r1 /\ dist p2 c2 = r2 /\ inner (vminus p2 p1) (ci_n info) = dist c1 c2 - (r1 + r2)).
Proof.
  intros c1 r1 c2 r2 id R1 R2. rewrite circle_circle by lra. destruct (Rlt_dec (dist c1 c2) (r1 + r2)) as [L|L].
  - eexists. split; [reflexivity|]. cbn [ci_arr ci_n set_n app]. split; [lra|]. intros _. pose proof (axis_circle_unit c1 c2) as U. split; [exact U|].
    assert (V : vminus c2 c1 = vscale (dist c1 c2) (axis_circle c1 c2)).
    { unfold axis_circle. destruct (Req_EM_T (dist c1 c2) 0) as [Z|Z].
      - rewrite Z. rewrite (dist_uw c1 c2) in Z. assert (Z2 : norm2 (vminus c2 c1) = 0) by (rewrite <- norm_sq, Z; ring). unfold norm2, vminus, inner in *. cbn [vx vy] in *. pose proof (sq_pos (vx c2 - vx c1)). pose proof (sq_pos (vy c2 - vy c1)).
        assert (Z3 : (vx c2 - vx c1) * (vx c2 - vx c1) = 0) by lra. assert (Z4 : (vy c2 - vy c1) * (vy c2 - vy c1) = 0) by lra.
        apply Rmult_integral in Z3. apply Rmult_integral in Z4. apply vec_eq; unfold vscale; cbn [vx vy]; lra.
      - apply vec_eq; unfold vscale; cbn [vx vy]; field; exact Z. }
    split; [exact V|]. eexists _, _. split; [reflexivity|]. split; [reflexivity|]. split; [reflexivity|]. rewrite !plus_offset, !offset_dist, Rabs_Ropp, (unit_norm _ U), !Rabs_pos_eq by assumption.
    split; [ring|]. split; [ring|]. rewrite <- !plus_offset, offset_depth, V. unfold unit in U. rewrite U.
    replace (inner (vscale (dist c1 c2) (axis_circle c1 c2)) (axis_circle c1 c2)) with (dist c1 c2 * norm2 (axis_circle c1 c2)) by (unfold inner, norm2, vscale; cbn [vx vy]; ring). rewrite U. ring.
  - eexists. split; [reflexivity|]. split; [reflexivity|]. intros; lra.
Qed.
(** against a segment: [delta] is the distance from the centre to the segment, attained at [q] *)
Theorem C39_circle_segment : forall c r (g : Seg R) rot id, 0 <= r -> 0 <= sg_r g -> sg_ta g <> sg_tb g ->
  exists info q, circle_to_segment c r g rot (mkCI id (mkV 0 0) []) = Some info /\ on_segment (sg_ta g) (sg_tb g) q /\ distance_to (on_segment (sg_ta g) (sg_tb g)) c (dist c q) /\
  (r + sg_r g <= dist c q -> ci_arr info = []) /\
  (dist c q < r + sg_r g -> (c = q -> ci_n info = sg_tn g) /\ (c <> q -> unit (ci_n info) /\ vminus q c = vscale (dist c q) (ci_n info)) /\
     exists p1 p2, ci_arr info = [mkCC p1 p2 0] /\ p1 = vplus c (vscale r (ci_n info)) /\ p2 = vplus q (vscale (- sg_r g) (ci_n info)) /\
       (c <> q -> dist p1 c = r /\ dist p2 q = sg_r g /\ inner (vminus p2 p1) (ci_n info) = dist c q - (r + sg_r g))).
Proof.
  intros c r g rot id R1 R2 Hne. rewrite circle_segment by lra. set (q := closest_point_on_segment c (sg_tb g) (sg_ta g)).
  pose proof (seg_distance c _ _ Hne) as SD. fold q in SD. pose proof (closest_point_on c (sg_tb g) (sg_ta g)) as Oq. fold q in Oq.
  destruct (Rlt_dec (dist c q) (r + sg_r g)) as [L|L].
  - eexists. exists q. split; [reflexivity|]. split; [exact Oq|]. split; [exact SD|]. cbn [ci_arr ci_n set_n app]. split; [lra|]. intros _.
    assert (Z : c = q -> dist c q = 0) by (intros <-; unfold dist, dist2; replace ((vx c - vx c) * (vx c - vx c) + (vy c - vy c) * (vy c - vy c)) with 0 by ring; apply sqrt_0).
    assert (NZ : c <> q -> 0 < dist c q) by apply dist_pos.
    assert (V : c <> q -> unit (axis_seg c q (sg_tn g)) /\ vminus q c = vscale (dist c q) (axis_seg c q (sg_tn g))).
    { intros Hc. specialize (NZ Hc). unfold axis_seg. destruct (Req_EM_T (dist c q) 0) as [E|E]; [lra|]. split.
      - rewrite (dist_uw c q) in E |- *. pose proof (unit_scale _ E) as U. replace (vscale (1 / norm (vminus q c)) (vminus q c)) with (vmult (vminus q c) (1 / norm (vminus q c))) by (apply vec_eq; unfold vmult, vscale; unR; cbn [vx vy]; ring). exact U.
      - apply vec_eq; unfold vscale; cbn [vx vy]; field; exact E. }
    split; [intros Hc; specialize (Z Hc); unfold axis_seg; destruct (Req_EM_T (dist c q) 0); [reflexivity|contradiction]|]. split; [exact V|].
    eexists _, _. split; [reflexivity|]. split; [reflexivity|]. split; [reflexivity|]. intros Hc. destruct (V Hc) as [U W]. rewrite !plus_offset, !offset_dist, Rabs_Ropp, (unit_norm _ U), !Rabs_pos_eq by assumption.
    split; [ring|]. split; [ring|]. rewrite <- !plus_offset, offset_depth, W. unfold unit in U. rewrite U. set (n := axis_seg c q (sg_tn g)) in *.
    replace (inner (vscale (dist c q) n) n) with (dist c q * norm2 n) by (unfold inner, norm2, vscale; cbn [vx vy]; ring). rewrite U. ring.
  - eexists. exists q. split; [reflexivity|]. split; [exact Oq|]. split; [exact SD|]. split; [reflexivity|]. intros; lra.
Qed.
Example C39_nonvacuous : dist (mkV 0 0) (mkV 3 4) < 3 + 3 /\ exists info, circle_to_circle (mkV 0 0) 3 (mkV 3 4) 3 (mkCI 0 (mkV 0 0) []) = Some info /\ length (ci_arr info) = 1%nat.
Proof.
  assert (D : dist (mkV 0 0) (mkV 3 4) = 5) by (unfold dist, dist2; cbn [vx vy]; replace ((0 - 3) * (0 - 3) + (0 - 4) * (0 - 4)) with (5 * 5) by ring; apply sqrt_square; lra).
  split; [lra|]. destruct (C39_circles (mkV 0 0) 3 (mkV 3 4) 3 0) as (info & E & _ & X); [lra|lra|]. exists info. split; [exact E|]. destruct X as (_ & _ & p1 & p2 & -> & _); [lra|reflexivity].
Qed.
Print Assumptions C39_circle_segment.

(** ** C42: support points, and the certificate *)
Theorem C42_support : forall s n, corners s <> [] -> (forall v, In v (corners s) -> - MaxFloat64 < inner v n) ->
  let p := sp_p (support_point s n) in In p (corners s) /\ forall x, core s x -> inner x n <= inner p n.
Proof. intros s n Hn Hb p. split; [now apply support_in|]. intros x Hx. eapply hull_le; [|exact Hx]. intros v Hv. now apply support_max. Qed.
(** for every cached id, unless the loop stopped at the iteration limit; the starting pair must be two different points *)
Theorem C42_certificate : forall (a b : CShape R) id pts, regular (cs_class a) -> regular (cs_class b) ->
  mk_ab (fst (gjk_start a b id)) <> mk_ab (snd (gjk_start a b id)) -> gjk a b id = Some (pts, true) ->
  answer (cs_class a) (cs_class b) (cp_a pts) (cp_b pts) (cp_n pts) (cp_d pts).
Proof. exact gjk_answer. Qed.
Theorem C42_separated : forall (a b : CShape R) id pts, regular (cs_class a) -> regular (cs_class b) -> sound (cs_class a) -> sound (cs_class b) ->
  mk_ab (fst (gjk_start a b id)) <> mk_ab (snd (gjk_start a b id)) -> gjk a b id = Some (pts, true) ->
  radius (cs_class a) + radius (cs_class b) < cp_d pts -> ~ overlap (covers (cs_class a)) (covers (cs_class b)).
Proof. intros a b id pts RA RB [PA _] [PB _] Hs Hg Hd. eapply answer_disjoint; eauto. eapply gjk_answer; eauto. Qed.
(** whatever the iteration count, the reported points are points of the two cores *)
Theorem C42_points : forall (a b : CShape R) id pts fl, regular (cs_class a) -> regular (cs_class b) -> gjk a b id = Some (pts, fl) ->
  core (cs_class a) (cp_a pts) /\ core (cs_class b) (cp_b pts) /\ norm (cp_n pts) <= 1.
Proof. exact gjk_from. Qed.
(** a point facing a wall: the hypotheses hold and the loop ends by itself *)
Definition dot_at0 : CShape R := mkCS (Circle (mkV 0 0) 0) (mkBB 0 0 0 0) 1 (mkV 1 0).
Definition wall : CShape R := mkCS (Segment (mkSeg (mkV 1 (-1)) (mkV 1 1) (mkV 1 0) (mkV 1 (-1)) (mkV 1 1) (mkV 1 0) 0)) (mkBB 1 (-1) 1 1) 2 (mkV 1 0).
Ltac rdec := repeat match goal with
  | |- context [Rltb ?x ?y] => first [replace (Rltb x y) with true by (symmetry; apply Rltb_true; lra)|replace (Rltb x y) with false by (symmetry; apply Rltb_false; lra)]
  | |- context [Rleb ?x ?y] => first [replace (Rleb x y) with true by (symmetry; apply Rleb_true; lra)|replace (Rleb x y) with false by (symmetry; apply Rleb_false; lra)] end; cbn [andb orb negb].
Lemma wall_start : gjk_start dot_at0 wall 0 = (mkMk (mkV 0 0) (mkV 1 (-1)) (mkV 1 (-1)) 0, mkMk (mkV 0 0) (mkV 1 1) (mkV 1 1) 1).
Proof.
  unfold gjk_start, dot_at0, wall. cbn [cs_class cs_bb N.eqb negb]. unfold support, support_point, bb_center, vlerp, vperp, vneg, vsub, vadd, vmult, vdot, mink.
  cbn [bl bb br bt sg_ta sg_tb]. unR. cbn [vx vy]. rdec. cbn [sp_p sp_i vx vy]. f_equal; (f_equal; apply vec_eq; unfold vsub; unR; cbn [vx vy]; lra).
Qed.
Example C42_nonvacuous : regular (cs_class dot_at0) /\ regular (cs_class wall) /\ sound (cs_class dot_at0) /\ sound (cs_class wall) /\
  mk_ab (fst (gjk_start dot_at0 wall 0)) <> mk_ab (snd (gjk_start dot_at0 wall 0)) /\
  exists pts, gjk dot_at0 wall 0 = Some (pts, true) /\ cp_a pts = mkV 0 0 /\ cp_b pts = mkV 1 0.
Proof.
  pose proof huge_ge1 as Hb.
  split; [|split; [|split; [|split; [|split]]]].
  - split; [discriminate|]. split; [cbn; lia|]. intros v [<-|[]]. cbn [vx vy]. rewrite Rabs_R0. lra.
  - split; [discriminate|]. split; [cbn; lia|]. intros v [<-|[<-|[]]]; cbn [vx vy sg_ta sg_tb]; split; apply abs_bounds; lra.
  - split; cbn; auto. lra.
  - split; cbn; [lra|]. right. apply unit_norm. unfold unit, norm2. cbn [vx vy]. ring.
  - rewrite wall_start. cbn [fst snd mk_ab]. intros [=]. lra.
  - unfold gjk. rewrite wall_start. replace gjk_fuel with (S (2 * maxGjk)) by (unfold gjk_fuel; lia). generalize (2 * maxGjk)%nat. intros fuel. cbn [gjk_recurse]. replace (maxGjk <? 1)%nat with false by reflexivity. cbn [mk_ab]. rewrite !pg_iff. unfold cross. cbn [vx vy]. rdec.
    assert (T0 : closest_t (mkV 1 (-1)) (mkV 1 1) = 0).
    { unfold closest_t, nclamp, vlensq, vdot, vsub, vadd. unR. cbn [vx vy]. replace ((1 - 1) * (1 + 1) + (1 - -1) * (-1 + 1)) with 0 by ring. unfold Rdiv. rewrite Rmult_0_l. rdec. rewrite Rmin_left by lra. ring. }
    rewrite T0. unR. rdec.
    assert (S0 : support (cs_class dot_at0) (cs_class wall) (vperp (vsub (mkV 1 1) (mkV 1 (-1)))) = mkMk (mkV 0 0) (mkV 1 1) (mkV 1 1) 1).
    { unfold support, support_point, dot_at0, wall, vperp, vneg, vsub, vdot, mink. cbn [cs_class sg_ta sg_tb]. unR. cbn [vx vy]. rdec. cbn [sp_p sp_i vx vy]. f_equal. apply vec_eq; unfold vsub; unR; cbn [vx vy]; lra. }
    rewrite S0. cbn [mk_ab vx vy]. rdec.
    assert (CA : checkaxis (mkV 1 (-1)) (mkV 1 1) (mkV 1 1) (vperp (vsub (mkV 1 1) (mkV 1 (-1)))) = true).
    { unfold checkaxis, vdot, vperp, vsub. unR. cbn [vx vy]. apply Rleb_true. eapply Rle_trans; [|apply Rmax_l]. lra. }
    rewrite CA. eexists. split; [reflexivity|]. unfold closest_points. cbn [mk_ab mk_a mk_b]. rewrite T0. unR.
    match goal with |- context [if ?x then _ else _] => destruct x end; cbn [cp_a cp_b]; split; apply vec_eq; unfold vlerp_t, vadd, vmult; unR; cbn [vx vy]; field.
Qed.
Print Assumptions C42_certificate.

(** ** C43: ShapesCollide *)
Theorem C43_points_in_shapes : forall (a b : CShape R) n pts, regular (cs_class a) -> regular (cs_class b) -> sound (cs_class a) -> sound (cs_class b) ->
  shapes_collide a b = Some (n, pts) -> Forall (fun c => covers (cs_class a) (pt_a c) /\ covers (cs_class b) (pt_b c)) pts.
Proof. exact shapes_inside. Qed.
Theorem C43_depth : forall (a b : CShape R) n pts, sound (cs_class a) -> sound (cs_class b) -> (order (cs_class a) <= order (cs_class b))%nat -> circle_poly a b = false ->
  shapes_collide a b = Some (n, pts) -> Forall (fun c => pt_d c <= 0 /\ pt_d c = inner (vminus (pt_b c) (pt_a c)) n) pts.
Proof. exact shapes_deep. Qed.
Theorem C43_count : forall (a b : CShape F), exists n pts, shapes_collide a b = Some (n, pts) /\ (length pts <= 2)%nat.
Proof. intros a b. destruct (C40_collide_total a b 0) as (sw & info & E & L). unfold shapes_collide. rewrite E. eexists _, _. split; [reflexivity|]. now rewrite map_length. Qed.
(** a rigid placement keeps the stored normal short *)
Lemma new_segment_sound a b r t : rigid t -> 0 <= r -> sound (Segment (fst (seg_cache (new_segment a b r) t))).
Proof.
  intros Rt Hr. unfold sound. cbn [radius]. unfold seg_cache. repeat match goal with |- context [let (_, _) := ?x in _] => destruct x end. cbn [fst sg_r sg_tn new_segment sg_n]. split; [exact Hr|].
  set (n := vrperp (vnormalize (vsub b a))). assert (Hn : norm n <= 1).
  { unfold n. left. replace (norm (vrperp (vnormalize (vsub b a)))) with (norm (vnormalize (vsub b a))) by (unfold norm, norm2, vrperp; unR; cbn [vx vy]; f_equal; ring). apply normalize_norm_lt. }
  replace (norm (t_vect t n)) with (norm n); [exact Hn|]. pose proof (rigid_dist t n (mkV 0 0) Rt) as D. unfold norm. f_equal. unfold dist2, t_point, t_vect, norm2 in *. unR. cbn [vx vy] in *. lra.
Qed.
Example C43_nonvacuous : exists n c, shapes_collide (mkCS (Circle (mkV 0 0) 3) (mkBB 0 0 0 0) 1 (mkV 1 0)) (mkCS (Circle (mkV 3 4) 3) (mkBB 0 0 0 0) 2 (mkV 1 0)) = Some (n, [c]) /\ pt_d c = -1.
Proof.
  destruct (C39_circles (mkV 0 0) 3 (mkV 3 4) 3 0) as (info & E & _ & X); [lra|lra|].
  assert (D : dist (mkV 0 0) (mkV 3 4) = 5) by (unfold dist, dist2; cbn [vx vy]; replace ((0 - 3) * (0 - 3) + (0 - 4) * (0 - 4)) with (5 * 5) by ring; apply sqrt_square; lra).
  destruct X as (_ & _ & p1 & p2 & A & _ & _ & _ & _ & I); [lra|]. unfold shapes_collide, collide. cbn [cs_class order Nat.ltb Nat.leb Nat.add Nat.mul builtin nth_error call].
  change (mkCI 0 vzero []) with (mkCI 0 (mkV 0 0) [] : CInfo R). rewrite E. cbn [option_map]. rewrite A. cbn [map]. eexists _, _. split; [reflexivity|]. cbn [pt_d cc_r1 cc_r2]. change (inner (vminus p2 p1) (ci_n info) = -1). rewrite I, D. ring.
Qed.
Print Assumptions C43_points_in_shapes.

(** ** C81, C82, C83, C53: where it goes wrong, in binary64 *)
Definition fv (x y : Z) : Vec F := mkV (Flit x 1) (Flit y 1).
Definition at_rest (s : Shape F) (box : BB F) (h : N) : CShape F := mkCS s box h (fv 1 0).
Definition disc (x y : Z) (r : F) (h : N) : CShape F := let c := circle_cache (fv x y) r t_identity in at_rest (Circle (fst c) r) (snd c) h.
Definition bar (a b : Vec F) (r : F) (h : N) : CShape F := let c := seg_cache (new_segment a b r) t_identity in at_rest (Segment (fst c)) (snd c) h.
Definition slab (vs : list (Vec F)) (r : F) (h : N) : CShape F := let c := poly_cache (poly_planes vs) r t_identity in at_rest (Poly (fst c) r) (snd c) h.
Definition depths (a b : CShape F) : list F := match shapes_collide a b with Some (_, pts) => map pt_d pts | None => [] end.
Definition xs_of_b (a b : CShape F) : list F := match shapes_collide a b with Some (_, pts) => map (fun c => vx (pt_b c)) pts | None => [] end.
Definition all2 (f : F -> F -> bool) (l m : list F) : bool := Nat.eqb (length l) (length m) && forallb (fun e => f (fst e) (snd e)) (combine l m).
(** C81: overlapping by 1/2; the depth is -1/2 in one order and +1/2 in the other *)
Theorem C81_order_refuted : let c := disc 0 1 (Flit 1 1) 1 in let s := bar (fv (-5) 0) (fv 5 0) (Flit 1 2) 2 in
  all2 Feqb (depths c s) [Flit (-1) 2] = true /\ all2 Feqb (depths s c) [Flit 1 2] = true.
Proof. cbv zeta. split; vm_compute; reflexivity. Qed.
(** C82: a unit circle at the origin against the square [1,3]x[-1,1] with rounding 1/2: the shapes overlap by 1/2 and the surface of the polygon is at x = 1/2, but the contact point is at 3/2 (up to rounding), with a positive "penetration" *)
Theorem C82_rounded_polygon_refuted : let c := disc 0 0 (Flit 1 1) 1 in let p := slab [fv 1 (-1); fv 3 (-1); fv 3 1; fv 1 1] (Flit 1 2) 2 in
  all2 Fltb [Flit 149 100] (xs_of_b c p) = true /\ all2 Fltb [Flit 49 100] (depths c p) = true.
Proof. cbv zeta. split; vm_compute; reflexivity. Qed.
(** C83: two disjoint segments in line, of radius zero and one unit apart, are reported as touching *)
Theorem C83_collinear_refuted : let s := bar (fv 0 0) (fv 1 0) (Flit 0 1) 1 in let t := bar (fv 2 0) (fv 3 0) (Flit 0 1) 2 in
  all2 Fleb (depths s t) [Flit 0 1; Flit 0 1] = true.
Proof. cbv zeta. vm_compute. reflexivity. Qed.
(** C53: the circle contains the degenerate segment *)
Theorem C53_degenerate_refuted : let c := disc 0 0 (Flit 1 1) 1 in let s := bar (fv 0 0) (fv 0 0) (Flit 1 10) 2 in
  depths c s = [] /\ length (depths c (bar (fv 0 0) (fv 1 0) (Flit 1 10) 2)) = 1%nat.
Proof. cbv zeta. split; vm_compute; reflexivity. Qed.
