(** Properties C44-C46, C48, C57, C76-C80: shapes. *)
From Coq Require Import Reals ZArith Bool List Lra Lia Psatz.
From Flocq Require Import IEEE754.BinarySingleNaN.
From Verif Require Import Num Spec SpecShapes.
From Verif.Model Require Import Vector BB Transform Shapes.
From Verif.Proofs Require Import RTac Geom ShapePf ShapePf2 PolyPf PolyPf2 SegQPf MassPf.
Import ListNotations.

(** ** C44: the cached box encloses the shape, radius included, and touches it on all four sides. *)
Theorem C44_circle : forall c r (t : Transform R) p, near (fun q => q = t_point t c) r p -> in_box (snd (circle_cache c r t)) p.
Proof. intros c r t p (q & -> & D). now apply circle_box. Qed.
Theorem C44_segment : forall a b r (t : Transform R) p, near (on_segment (t_point t a) (t_point t b)) r p -> in_box (snd (seg_cache (new_segment a b r) t)) p.
Proof.
  intros a b r t p (q & (s & S & ->) & D). apply (seg_box (new_segment a b r) t (seg_point a b s)); [exists s; auto|]. replace (t_point t (seg_point a b s)) with (seg_point (t_point t a) (t_point t b) s); auto. apply vec_eq; unfold seg_point, t_point; unR; cbn [vx vy]; ring.
Qed.
Lemma planes_v0 (vs : list RV) : map pl_v0 (poly_planes vs) = vs.
Proof. unfold poly_planes. rewrite map_map. cbn [pl_v0]. apply combine_shift_snd. Qed.
Theorem C44_polygon : forall vs r (t : Transform R) p, near (in_hull (map (t_point t) vs)) r p -> in_box (snd (poly_cache (poly_planes vs) r t)) p.
Proof.
  intros vs r t p (q & Q & D). assert (X : exists q', in_hull vs q' /\ q = t_point t q').
  { clear D. induction Q as [v V|x y z X IX Y IY O]; [apply in_map_iff in V as (v' & <- & V); exists v'; split; auto; now constructor|]. destruct IX as (x' & X' & ->). destruct IY as (y' & Y' & ->). destruct O as (s & S & ->). exists (seg_point x' y' s).
    split; [apply hull_between with x' y'; auto; exists s; auto|]. apply vec_eq; unfold seg_point, t_point; unR; cbn [vx vy]; ring. }
  destruct X as (q' & Q' & ->). apply (poly_box_ok (poly_planes vs) r t q'); auto. now rewrite planes_v0.
Qed.
Theorem C44_tight_circle : forall c r (t : Transform R), 0 <= r -> touched (snd (circle_cache c r t)) (near (fun q => q = t_point t c) r).
Proof. exact circle_tight. Qed.
Theorem C44_tight_segment : forall a b r (t : Transform R), 0 <= r -> touched (snd (seg_cache (new_segment a b r) t)) (near (on_segment (t_point t a) (t_point t b)) r).
Proof. intros a b r. exact (seg_tight (new_segment a b r)). Qed.
Theorem C44_tight_polygon : forall vs r (t : Transform R), 0 <= r -> vs <> [] -> (forall v, In v vs -> Rabs (vx (t_point t v)) <= MaxFloat64 /\ Rabs (vy (t_point t v)) <= MaxFloat64) ->
  touched (snd (poly_cache (poly_planes vs) r t)) (near (in_hull (map (t_point t) vs)) r).
Proof.
  intros vs r t R0 N B. rewrite <- (planes_v0 vs) at 2. apply poly_tight; auto.
  - intros E. apply N. rewrite <- (planes_v0 vs), E. reflexivity.
  - intros q Q. apply B. rewrite <- (planes_v0 vs). now apply in_map.
Qed.
Print Assumptions C44_tight_polygon.

(** ** C45: point queries return the signed distance and a point of the surface at that distance. *)
Theorem C45_circle : forall c r p, 0 <= r -> p <> c -> let i := point_query (Circle c r) p in
  pi_dist i = dist p c - r /\ dist (pi_point i) c = r /\ dist p (pi_point i) = Rabs (pi_dist i) /\
  (1 / 100000 < dist p c -> norm (pi_grad i) = 1 /\ p = vplus (pi_point i) (vscale (pi_dist i) (pi_grad i))).
Proof.
  intros c r p R0 N. cbv zeta. change (point_query (Circle c r) p) with (circle_point_query c r p). destruct (circle_pq c r p R0 N) as (A & B & C & D). do 3 (split; [assumption|]). intros L. destruct (D L) as [D1 D2]. split; auto.
  assert (G : pi_grad (circle_point_query c r p) = vmult (vsub p c) (1 / dist p c)). { unfold circle_point_query. rewrite dist_vlen. cbn [pi_grad]. unfold magic_epsilon. unR. destruct (Rltb (1 / 100000) (dist p c)) eqn:Q; rbool; [reflexivity|lra]. }
  rewrite A, G. unfold circle_point_query. rewrite dist_vlen. cbn [pi_point]. pose proof (dist_pos p c N). apply vec_eq; unfold vplus, vadd, vmult, vsub, vscale; unR; cbn [vx vy]; field; lra.
Qed.
Theorem C45_segment : forall a b r t p, rigid t -> 0 <= r -> a <> b -> let core := on_segment (t_point t a) (t_point t b) in ~ core p ->
  let i := point_query (Segment (fst (seg_cache (new_segment a b r) t))) p in
  exists d, distance_to core p d /\ pi_dist i = d - r /\ distance_to core (pi_point i) r /\ dist p (pi_point i) = Rabs (pi_dist i) /\
    (1 / 100000 < d -> norm (pi_grad i) = 1 /\ p = vplus (pi_point i) (vscale (pi_dist i) (pi_grad i))).
Proof.
  intros a b r t p Rt R0 N core NC. cbv zeta. change (point_query (Segment ?s) p) with (seg_point_query s p). set (s := fst _). destruct (seg_cache_pts (new_segment a b r) t) as (E1 & E2 & E3). fold s in E1, E2, E3. cbn [new_segment sg_a sg_b sg_r] in E1, E2, E3.
  destruct (seg_pq s p) as (d & D); rewrite ?E1, ?E2, ?E3 in *; auto; [|exists d; exact D]. intros E. apply N. eapply rigid_inj; eauto.
Qed.
(** polygons: convex, counter-clockwise (what PolyShape keeps); negative inside *)
Theorem C45_polygon : forall vs r t p, convex_ccw vs -> rigid t -> 0 <= r ->
  let ws := map (t_point t) vs in (exists q, boundary ws q /\ dist p q < MaxFloat64) ->
  let i := point_query (Poly (fst (poly_cache (poly_planes vs) r t)) r) p in
  exists d, distance_to (boundary ws) p d /\ (region ws p -> pi_dist i = - d - r) /\ (~ region ws p -> distance_to (region ws) p d /\ pi_dist i = d - r) /\
    (0 < d -> distance_to (region ws) (pi_point i) r /\ dist p (pi_point i) = Rabs (pi_dist i) /\
       (1 / 100000 < d -> norm (pi_grad i) = 1 /\ p = vplus (pi_point i) (vscale (pi_dist i) (pi_grad i)))).
Proof. exact poly_pq. Qed.
(** a square meets the hypotheses *)
Definition square : list RV := [mkV 0 0; mkV 2 0; mkV 2 2; mkV 0 2].
Example square_ccw : convex_ccw square.
Proof.
  split; [cbn; lia|]. split; [|split].
  - repeat (constructor; [cbn [In]; intros H; repeat (destruct H as [H|H]; [injection H; intros; lra|]); exact H|]). constructor.
  - intros a b v I J. unfold square, ring in I. cbn [combine last In] in I. unfold square in J. cbn [In] in J. unfold turn.
    repeat (destruct I as [I|I]; [injection I as <- <-; repeat (destruct J as [J|J]; [subst v; cbn [vx vy]; lra|]); destruct J|]). destruct I.
  - exists (mkV 0 0), (mkV 2 0), (mkV 2 2). unfold square, ring. cbn [combine last In]. split; [auto|]. split; [auto|]. unfold turn. cbn [vx vy]. lra.
Qed.
Example square_small : exists q, boundary (map (t_point t_identity) square) q /\ dist (mkV 5 1) q < MaxFloat64.
Proof.
  exists (mkV 2 1). split.
  - exists (mkV 2 0), (mkV 2 2). split; [|exists (1/2); split; [lra|apply vec_eq; unfold seg_point; cbn; lra]].
    right. right. left. f_equal; apply vec_eq; unfold t_point, t_identity; unR; cbn [vx vy ta tb tc td ttx tty]; lra.
  - unfold dist, dist2. cbn [vx vy]. replace ((5 - 2) * (5 - 2) + (1 - 1) * (1 - 1)) with (3 * 3) by ring. rewrite sqrt_square by lra. unfold MaxFloat64. apply IZR_lt. vm_compute. reflexivity.
Qed.
Print Assumptions C45_polygon.

(** ** C76: at a circle's centre, on a segment's core or on a polygon's boundary there is no such point. *)
Definition fv (x y : Z) : Vec F := mkV (Flit x 1) (Flit y 1).
Definition is_nan_vec (v : Vec F) : bool := is_nan (vx v) && is_nan (vy v).
Definition vec_eqb (u v : Vec F) : bool := Feqb (vx u) (vx v) && Feqb (vy u) (vy v).
Theorem C76_circle_centre_refuted : let i := point_query (Circle (fv 3 4) (Flit 2 1)) (fv 3 4) in is_nan_vec (pi_point i) = true /\ Feqb (pi_dist i) (Flit (-2) 1) = true.
Proof. cbv zeta. repeat split; vm_compute; reflexivity. Qed.
Definition fid : Transform F := t_identity.
Theorem C76_segment_core_refuted : let i := point_query (Segment (fst (seg_cache (new_segment (fv 0 0) (fv 10 0) (Flit 2 1)) fid))) (fv 5 0) in
  Feqb (pi_dist i) (Flit (-2) 1) = true /\ vec_eqb (pi_point i) (fv 5 0) = true.
Proof. cbv zeta. repeat split; vm_compute; reflexivity. Qed.
Theorem C76_polygon_boundary_refuted : let s := Poly (fst (poly_cache (poly_planes [fv 0 0; fv 2 0; fv 2 2; fv 0 2]) (Flit 0 1) fid)) (Flit 0 1) in
  is_nan_vec (pi_point (point_query s (fv 2 1))) = true /\
  let i := segment_query s (fv 2 1) (fv 9 1) (Flit 0 1) in si_hit i = true /\ is_nan_vec (si_normal i) = true.
Proof. cbv zeta. repeat split; vm_compute; reflexivity. Qed.
Print Assumptions C76_polygon_boundary_refuted.

(** ** C46: segment queries return the first fraction at which the swept segment meets the shape. *)
Theorem C46_circle : forall c r a b r2, 0 <= r -> 0 <= r2 -> a <> b -> a <> c -> let i := segment_query (Circle c r) a b r2 in
  let D := near (fun q => q = c) (r + r2) in
  (if si_hit i then first_hit D a b (si_alpha i) else no_hit D a b) /\
  (0 < si_alpha i -> si_hit i = true -> let x := seg_point a b (si_alpha i) in
     r <= dist (si_point i) c <= r + 1 / 1000000000000000 /\ on_segment x c (si_point i) /\ exists k, 0 < k /\ si_normal i = vscale k (vminus x c)).
Proof.
  intros c r a b r2 R0 R2 NE NC. cbv zeta. unfold segment_query. destruct (C45_circle c r a R0 NC) as (A & _). cbv zeta in A. rewrite A. unR.
  assert (EQ : forall x, near (fun q => q = c) (r + r2) x <-> disc c (r + r2) x) by (intros x; split; [intros (q & -> & D); exact D|intros D; exists c; auto]).
  destruct (Rleb (dist a c - r) r2) eqn:B; rbool; cbn [si_hit si_alpha].
  - split; [|lra]. split; [lra|]. split; [apply EQ; unfold disc; replace (seg_point a b 0) with a by (destruct a; apply vec_eq; unfold seg_point; cbn; ring); lra|intros; lra].
  - change (class_segment_query (Circle c r) a b r2 (blank b)) with (circle_segment_query c r a b r2 (blank b)). destruct (circle_sq c r r2 a b (blank b)) as [(N & ->)|(t & (T & O & M) & ->)]; auto; [lra|lra| |].
    + cbn [blank si_hit]. split; [|discriminate]. intros s S X. apply (N s S). now apply EQ.
    + cbn [si_hit si_alpha si_point si_normal]. split; [split; auto; split; [now apply EQ|intros s S X; apply M; auto; now apply EQ]|]. intros T0 _. set (x := seg_point a b t) in *. set (u := vminus x c). rewrite normalize_eq. pose proof (normalize_scale u) as K. set (k := 1 / (norm u + 1 / 1000000000000000)) in *.
      assert (Xr : r + r2 <= dist x c). { apply Rnot_lt_le. intros L. (* otherwise an earlier point would be inside *)
        set (e := (r + r2 - dist x c) / dist a b). assert (Dab := dist_pos _ _ NE). assert (E0 : 0 < e) by (apply Rdiv_lt_0_compat; lra). set (s := Rmax 0 (t - e)). assert (S : 0 <= s < t) by (unfold s, Rmax; destruct (Rle_dec 0 (t - e)); lra).
        assert (IN : disc c (r + r2) (seg_point a b s)). { unfold disc. apply Rle_trans with (dist (seg_point a b s) x + dist x c); [apply dist_tri|]. assert (DS : dist (seg_point a b s) x = (t - s) * dist a b). { unfold x. rewrite (dist_sym a b), (dist_norm b a), <- norm_scale by lra. rewrite dist_sym, dist_norm. f_equal. apply vec_eq; unfold vminus, vscale, seg_point; cbn [vx vy]; ring. } rewrite DS.
          assert (t - s <= e) by (unfold s, Rmax; destruct (Rle_dec 0 (t - e)); lra). assert (e * dist a b = r + r2 - dist x c) by (unfold e; field; lra). nra. }
        specialize (M s ltac:(lra) IN). lra. }
      assert (Xe : dist x c = r + r2) by (unfold disc in O; lra). assert (Nu : norm u = r + r2) by (unfold u; rewrite <- dist_norm; auto).
      assert (PE : vminus x (vscale r2 (vscale k u)) = seg_point x c (r2 * k)) by (apply vec_eq; unfold vminus, vscale, seg_point, u; cbn [vx vy]; unfold vminus; cbn [vx vy]; ring).
      assert (KN : k * norm u <= 1 /\ 1 - k * norm u <= k * (1 / 1000000000000000)). { assert (KE : k * (norm u + 1 / 1000000000000000) = 1) by (unfold k; field; pose proof (norm_nonneg u); lra). split; lra. }
      assert (KR : 0 <= r2 * k <= 1) by (rewrite Nu in KN; split; nra). split; [|split; [rewrite PE; exists (r2 * k); auto|exists k; split; [exact K|reflexivity]]].
      assert (DC : dist (vminus x (vscale r2 (vscale k u))) c = (1 - r2 * k) * (r + r2)). { rewrite <- Nu, PE. unfold u. rewrite <- norm_scale by lra. rewrite dist_norm. f_equal. apply vec_eq; unfold vminus, vscale, seg_point; cbn [vx vy]; ring. }
      rewrite DC. rewrite Nu in KN. split; [nra|]. replace ((1 - r2 * k) * (r + r2)) with (r + r2 * (1 - k * (r + r2))) by ring. nra.
Qed.
(** thin segments; the end points of the query not on the segment's line *)
Theorem C46_thin_segment : forall p q t a b, rigid t -> p <> q -> let core := on_segment (t_point t p) (t_point t q) in
  turn (t_point t p) (t_point t q) a <> 0 -> turn (t_point t p) (t_point t q) b <> 0 ->
  let i := segment_query (Segment (fst (seg_cache (new_segment p q 0) t))) a b 0 in
  (if si_hit i then first_hit core a b (si_alpha i) else no_hit core a b) /\
  (si_hit i = true -> si_point i = seg_point a b (si_alpha i) /\ 0 < inner (si_normal i) (vminus a b) /\ inner (si_normal i) (vminus (t_point t q) (t_point t p)) = 0).
Proof.
  intros p q t a b Rt N core NA NB. cbv zeta. unfold segment_query. assert (NC : ~ core a) by (intros (s & S & ->); apply NA; unfold turn, seg_point; cbn [vx vy]; ring).
  destruct (C45_segment p q 0 t a Rt (Rle_refl 0) N NC) as (d & (DW & DM) & PD & _). cbv zeta in PD. rewrite PD. assert (D0 : 0 < d). { destruct DW as (w & W & <-). apply dist_pos. intros ->. contradiction. }
  unR. rewrite (proj2 (Rleb_false (d - 0) 0)) by lra. set (s := fst _). destruct (seg_cache_pts (new_segment p q 0) t) as (E1 & E2 & E3). fold s in E1, E2, E3. cbn [new_segment sg_a sg_b sg_r] in E1, E2, E3.
  change (class_segment_query (Segment s) a b 0 (blank b)) with (seg_segment_query s a b 0 (blank b)). assert (SN := seg_normal_cache p q 0 t Rt). fold s in SN. destruct (thin_seg s a b (blank b) E3 SN) as [(NH & ->)|(u & FH & _ & HH & HA & HP & HN)]; rewrite ?E1, ?E2 in *; auto.
  - cbn [blank si_hit]. split; [exact NH|discriminate].
  - rewrite HH, HA. split; auto.
Qed.
(** thin polygons; the query starts outside and is not parallel to an edge it starts beyond *)
Theorem C46_thin_polygon : forall vs t a b, convex_ccw vs -> rigid t -> let ws := map (t_point t) vs in ~ region ws a ->
  (exists q, boundary ws q /\ dist a q < MaxFloat64) -> (forall u v, In (u, v) (ring ws) -> turn u v a <= 0 -> turn u v a <> turn u v b) ->
  let i := segment_query (Poly (fst (poly_cache (poly_planes vs) 0 t)) 0) a b 0 in
  (if si_hit i then first_hit (region ws) a b (si_alpha i) else no_hit (region ws) a b) /\
  (si_hit i = true -> si_point i = seg_point a b (si_alpha i) /\ exists u v k, In (u, v) (ring ws) /\ on_segment u v (si_point i) /\ 0 < k /\ si_normal i = vscale k (mkV (vy v - vy u) (vx u - vx v))).
Proof.
  intros vs t a b CV Rt ws Na MX NP. cbv zeta. unfold segment_query. destruct (poly_pq vs 0 t a CV Rt (Rle_refl 0) MX) as (d & (_ & _ & PD & _)). destruct (PD Na) as (((w & W & WD) & DM) & PDE). clear PD.
  change (pi_dist (point_query (Poly ?p 0) a)) with (pi_dist (poly_point_query p 0 a)). rewrite PDE. assert (D0 : 0 < d). { rewrite <- WD. apply dist_pos. intros ->. contradiction. }
  unR. rewrite (proj2 (Rleb_false (d - 0) 0)) by lra. change (class_segment_query (Poly ?p 0) a b 0 (blank b)) with (poly_segment_query p 0 a b 0 (blank b)).
  assert (NE : vs <> []) by (destruct CV as (L & _); destruct vs; [cbn in L; lia|discriminate]). destruct (thin_poly ws (fst (poly_cache (poly_planes vs) 0 t)) a b (blank b) (convex_rigid t vs Rt CV) (planes_ok t vs 0 NE Rt) Na NP) as [(NH & ->)|(s & u & v & q & FH & I & O & (_ & k & K & Nq & _) & HH & HA & HP & HN)].
  - cbn [blank si_hit]. split; [exact NH|discriminate].
  - rewrite HH, HA. split; auto. intros _. split; auto. rewrite HP, HN. exists u, v, k. split; auto. split; auto. split; auto. rewrite Nq. f_equal. apply vec_eq; unfold vrperp, vsub; unR; cbn [vx vy fst snd]; ring.
Qed.
Print Assumptions C46_circle.
Print Assumptions C46_thin_polygon.
Example C46_nonvacuous : let ws := map (t_point t_identity) square in ~ region ws (mkV 5 1) /\ rigid t_identity /\
  forall u v, In (u, v) (ring ws) -> turn u v (mkV 5 1) <= 0 -> turn u v (mkV 5 1) <> turn u v (mkV (-1) (1/2)).
Proof.
  assert (E : map (t_point t_identity) square = square) by (rewrite <- (map_id square) at 2; apply map_ext; intros [x y]; apply vec_eq; unfold t_point, t_identity; unR; cbn [vx vy ta tb tc td ttx tty]; ring). cbv zeta. rewrite E. split; [|split].
  - intros X. specialize (X (mkV 2 0) (mkV 2 2)). unfold turn in X. cbn [vx vy] in X. assert (0 <= (2 - 2) * (1 - 0) - (2 - 0) * (5 - 2)) by (apply X; right; right; left; reflexivity). lra.
  - unfold rigid, t_identity. unR. cbn [ta tb tc td]. lra.
  - intros u v I. unfold square, ring in I. cbn [combine last In] in I. unfold turn. repeat (destruct I as [I|I]; [injection I as <- <-; cbn [vx vy]; lra|]). destruct I.
Qed.

(** ** C77: rounded segments.  A query that starts beside the end of the segment, within the radius of its line, reports a later hit or none. *)
Definition rod : Seg R := fst (seg_cache (new_segment (mkV 0 0) (mkV 10 0) 1) t_identity).
Lemma rod_fields : exists k, 999/1000 < k < 1 /\ sg_ta rod = mkV 0 0 /\ sg_tb rod = mkV 10 0 /\ sg_tn rod = mkV 0 (- k) /\ sg_r rod = 1.
Proof.
  exists (10 / (10 + 1 / 1000000000000000)). split; [split; apply Rmult_lt_reg_r with (10 + 1 / 1000000000000000); try lra; replace (10 / (10 + 1 / 1000000000000000) * (10 + 1 / 1000000000000000)) with 10 by (field; lra); lra|].
  destruct (seg_cache_pts (new_segment (mkV 0 0) (mkV 10 0) 1) t_identity) as (E1 & E2 & E3). fold rod in E1, E2, E3. cbn [new_segment sg_a sg_b sg_r] in E1, E2, E3.
  split; [rewrite E1; apply vec_eq; unfold t_point, t_identity; unR; cbn [vx vy ta tb tc td ttx tty]; lra|]. split; [rewrite E2; apply vec_eq; unfold t_point, t_identity; unR; cbn [vx vy ta tb tc td ttx tty]; lra|]. split; auto.
  assert (TN : sg_tn rod = t_vect t_identity (sg_n (new_segment (mkV 0 0) (mkV 10 0) 1))) by (unfold rod, seg_cache; do 2 match goal with |- context [let (_, _) := ?x in _] => destruct x end; reflexivity).
  rewrite TN. unfold new_segment. cbn [sg_n]. rewrite normalize_eq. assert (NN : norm (vsub (mkV 10 0) (mkV 0 0)) = 10). { unfold norm, norm2, vsub. unR. cbn [vx vy]. replace ((10 - 0) * (10 - 0) + (0 - 0) * (0 - 0)) with (10 * 10) by ring. apply sqrt_square. lra. }
  rewrite NN. apply vec_eq; unfold t_vect, t_identity, vrperp, vscale, vsub; unR; cbn [vx vy ta tb tc td ttx tty]; field; lra.
Qed.
Lemma rod_start a b : vx a < -1 -> segment_query (Segment rod) a b 0 = seg_segment_query rod a b 0 (blank b).
Proof.
  intros L. unfold segment_query. assert (NE : mkV 0 0 <> (mkV 10 0 : RV)) by (intros E; injection E; lra). assert (Rt : rigid t_identity) by (unfold rigid, t_identity; unR; cbn [ta tb tc td]; lra).
  assert (CX : forall q, on_segment (t_point t_identity (mkV 0 0)) (t_point t_identity (mkV 10 0)) q -> 0 <= vx q) by (intros q (s & S & ->); unfold seg_point, t_point, t_identity; unR; cbn [vx vy ta tb tc td ttx tty]; lra).
  assert (NC : ~ on_segment (t_point t_identity (mkV 0 0)) (t_point t_identity (mkV 10 0)) a) by (intros X; specialize (CX a X); lra).
  destruct (C45_segment (mkV 0 0) (mkV 10 0) 1 t_identity a Rt Rle_0_1 NE NC) as (d & ((q & Q & D) & _) & PD & _). cbv zeta in PD. fold rod in PD. rewrite PD. specialize (CX q Q). assert (1 < d). { rewrite <- D. apply Rnot_le_lt. intros X. apply dist_coord in X as [X _]. apply abs_bounds in X. lra. }
  unR. rewrite (proj2 (Rleb_false (d - 1) 0)) by lra. reflexivity.
Qed.
Theorem C77_late_hit_refuted : exists a b, let i := segment_query (Segment rod) a b 0 in
  ~ near (on_segment (sg_ta rod) (sg_tb rod)) (sg_r rod) a /\ si_hit i = true /\ si_alpha i > 2/5 /\ near (on_segment (sg_ta rod) (sg_tb rod)) (sg_r rod) (seg_point a b (1/5)).
Proof.
  destruct rod_fields as (k & K & E1 & E2 & E3 & E4). exists (mkV (-3) (1/2)), (mkV 9 (3/2)). cbv zeta. rewrite rod_start by (cbn; lra). rewrite E1, E2, E4. split; [|split].
  - intros (q & (s & S & ->) & D). apply dist_coord in D as [D _]. apply abs_bounds in D. unfold seg_point in D. cbn [vx vy] in D. lra.
  - unfold seg_segment_query. rewrite E1, E2, E3, E4. unfold vdot, vsub, vadd, vmult, vneg, vcross. unR. cbn [vx vy]. rewrite (proj2 (Rltb_true 0 _)) by lra. cbn [vx vy].
    rewrite (proj2 (Rleb_true _ 0)) by nra. rewrite (proj2 (Rltb_true _ 0)) by nra. reflexivity.
  - split.
    + unfold seg_segment_query. rewrite E1, E2, E3, E4. unfold vdot, vsub, vadd, vmult, vneg, vcross. unR. cbn [vx vy]. rewrite (proj2 (Rltb_true 0 _)) by lra. cbn [vx vy].
      rewrite (proj2 (Rleb_true _ 0)) by nra. rewrite (proj2 (Rltb_true _ 0)) by nra. cbn [si_alpha]. apply Rlt_gt. match goal with |- _ < ?n / ?d => assert (0 < d) by lra; apply Rmult_lt_reg_r with d; auto; replace (n / d * d) with n by (field; lra); lra end.
    + exists (mkV 0 0). split; [apply on_seg_l|]. unfold dist, dist2, seg_point. cbn [vx vy]. apply Rle_trans with (sqrt 1); [apply sqrt_le_1_alt; lra|rewrite sqrt_1; lra].
Qed.
Theorem C77_missed_refuted : exists a b, let i := segment_query (Segment rod) a b 0 in
  si_hit i = false /\ near (on_segment (sg_ta rod) (sg_tb rod)) (sg_r rod) (seg_point a b (1/2)).
Proof.
  destruct rod_fields as (k & K & E1 & E2 & E3 & E4). exists (mkV (-3/2) (1/2)), (mkV 5 (9/10)). cbv zeta. rewrite rod_start by (cbn; lra). rewrite E1, E2, E4. split.
  - unfold seg_segment_query. rewrite E1, E2, E3, E4. unfold vdot, vsub, vadd, vmult, vneg, vcross. unR. cbn [vx vy]. rewrite (proj2 (Rltb_true 0 _)) by lra. cbn [vx vy].
    rewrite (proj2 (Rleb_true _ 0)) by nra. rewrite (proj2 (Rltb_false _ 0)) by nra. reflexivity.
  - exists (mkV (7/4) 0). split; [exists (7/40); split; [lra|apply vec_eq; unfold seg_point; cbn [vx vy]; lra]|]. unfold dist, dist2, seg_point. cbn [vx vy]. apply Rle_trans with (sqrt 1); [apply sqrt_le_1_alt; lra|rewrite sqrt_1; lra].
Qed.
Print Assumptions C77_late_hit_refuted.

(** ** C78: if the query starts within the shape, alpha is 0 but the reported point is the far end. *)
Theorem C78_start_inside_refuted : exists c r a b, near (fun q => q = c) r a /\ let i := segment_query (Circle c r) a b 0 in
  si_hit i = true /\ si_alpha i = 0 /\ si_point i = b /\ si_point i <> seg_point a b (si_alpha i) /\ ~ near (fun q => q = c) r (si_point i).
Proof.
  exists (mkV 0 0), 1, (mkV (1/2) 0), (mkV 10 0). assert (D : dist (mkV (1/2) 0) (mkV 0 0) = 1/2) by (unfold dist, dist2; cbn [vx vy]; replace ((1/2 - 0) * (1/2 - 0) + (0 - 0) * (0 - 0)) with (1/2 * (1/2)) by field; apply sqrt_square; lra).
  split; [exists (mkV 0 0); split; auto; lra|]. cbv zeta. unfold segment_query. destruct (C45_circle (mkV 0 0) 1 (mkV (1/2) 0)) as (A & _); [lra|intros E; injection E; lra|]. cbv zeta in A. rewrite A, D. unR. rewrite (proj2 (Rleb_true _ 0)) by lra. cbn [si_hit si_alpha si_point].
  do 3 (split; [reflexivity|]). split; [intros E; unfold seg_point in E; injection E; cbn [vx vy]; lra|]. intros (q & -> & X). apply dist_coord in X as [X _]. apply abs_bounds in X. cbn [vx vy] in X. lra.
Qed.

(** ** C57: SetEndpoints turns the normal to the other side. *)
Theorem C57_set_endpoints_refuted : forall (s : Seg R) a b r, sg_n (seg_set_endpoints s a b) = vscale (-1) (sg_n (new_segment a b r)) /\
  (a <> b -> sg_n (seg_set_endpoints s a b) <> sg_n (new_segment a b r)).
Proof.
  intros s a b r. assert (E : sg_n (seg_set_endpoints s a b) = vscale (-1) (sg_n (new_segment a b r))) by (unfold seg_set_endpoints, new_segment; cbn [sg_n]; apply vec_eq; unfold vperp, vrperp, vscale; unR; cbn [vx vy]; ring). split; auto. intros N X.
  rewrite E in X. assert (ZZ : forall n : RV, vscale (-1) n = n -> n = mkV 0 0) by (intros [nx ny] Y; injection Y; cbn [vx vy]; intros; apply vec_eq; cbn [vx vy]; lra). apply ZZ in X. rename X into Z. unfold new_segment in Z. cbn [sg_n] in Z. rewrite normalize_eq in Z. pose proof (normalize_scale (vsub b a)) as K. set (k := 1 / _) in *. clearbody k.
  injection Z. unfold vscale, vsub. unR. cbn [vx vy]. intros Z1 Z2. apply N. apply vec_eq; apply Rmult_eq_reg_l with k; lra.
Qed.
(** the end points themselves are those given, and the box and the distances are those of a new segment *)
Theorem C57_set_endpoints_same_points_partial : forall (s : Seg R) a b t p, let s1 := seg_set_endpoints s a b in let s2 := new_segment a b (sg_r s) in
  snd (seg_cache s1 t) = snd (seg_cache s2 t) /\
  pi_dist (seg_point_query (fst (seg_cache s1 t)) p) = pi_dist (seg_point_query (fst (seg_cache s2 t)) p) /\ pi_point (seg_point_query (fst (seg_cache s1 t)) p) = pi_point (seg_point_query (fst (seg_cache s2 t)) p).
Proof.
  intros s a b t p. cbv zeta. split.
  - unfold seg_cache, seg_set_endpoints, new_segment. cbn [sg_a sg_b sg_r]. do 2 match goal with |- context [let (_, _) := ?x in _] => destruct x end. reflexivity.
  - unfold seg_point_query. destruct (seg_cache_pts (seg_set_endpoints s a b) t) as (-> & -> & ->). destruct (seg_cache_pts (new_segment a b (sg_r s)) t) as (-> & -> & ->). cbn [seg_set_endpoints new_segment sg_a sg_b sg_r pi_dist pi_point]. auto.
Qed.

(** ** C48: area, centroid and moment of polygons. *)
Theorem C48_area_translation : forall d vs r, area_for_poly (map (vplus d) vs) r = area_for_poly vs r.
Proof. exact area_translate. Qed.
Theorem C48_area_cyclic : forall l m r, area_for_poly (m ++ l : list RV) r = area_for_poly (l ++ m) r.
Proof. exact area_rot. Qed.
(** the area is the sum of the signed triangles seen from any point, and positive for counter-clockwise convex polygons *)
Theorem C48_area_triangles : forall o vs, area_for_poly vs 0 = fold_right Rplus 0 (map (fun e => turn o (fst e) (snd e) / 2) (edges vs)).
Proof.
  intros o vs. rewrite (area_origin o). rewrite Rmult_0_l, Rplus_0_l. unfold esum, rsum. induction (edges vs) as [|e L IH]; cbn [map fold_right]; [field|]. rewrite <- IH. field.
Qed.
Theorem C48_area_sign : forall vs, convex_ccw vs -> 0 < area_for_poly vs 0 /\ area_for_poly (rev vs) 0 < 0.
Proof. intros vs CV. assert (P := area_ccw vs CV 0 (Rle_refl 0)). split; auto. rewrite area_rev. lra. Qed.
Theorem C48_centroid_translation : forall d vs, area_for_poly vs 0 <> 0 -> centroid_for_poly (map (vplus d) vs) = vplus d (centroid_for_poly vs).
Proof. intros d vs N. apply centroid_translate. intros E. apply N. rewrite area_eq, E. field. Qed.
Theorem C48_centroid_cyclic : forall l m : list RV, centroid_for_poly (m ++ l) = centroid_for_poly (l ++ m).
Proof. exact centroid_rot. Qed.
Theorem C48_moment_cyclic : forall m (l k : list RV) o r, length (l ++ k) <> 2%nat -> moment_for_poly m (k ++ l) o r = moment_for_poly m (l ++ k) o r.
Proof. exact moment_rot. Qed.
Theorem C48_moment_offset : forall (m : R) vs o r, length vs <> 2%nat -> moment_for_poly m (map (vplus o) vs) (mkV 0 0) r = moment_for_poly m vs o r.
Proof. exact moment_offset. Qed.
(** the parallel axis theorem *)
Theorem C48_moment_parallel_axis : forall (m : R) vs o r, length vs <> 2%nat -> area_for_poly vs 0 <> 0 -> let c := centroid_for_poly vs in
  moment_for_poly m vs o r = moment_for_poly m vs (vscale (-1) c) r + m * norm2 (vplus o c).
Proof. intros m vs o r L N. apply moment_parallel_axis; auto. intros E. apply N. rewrite area_eq, E. field. Qed.
Example C48_nonvacuous : area_for_poly square 0 = 4 /\ centroid_for_poly square = mkV 1 1 /\ moment_for_poly 3 square (mkV (-1) (-1)) 0 = 2.
Proof.
  split; [|split].
  - rewrite area_eq. unfold esum, rsum, square, edges, crs. cbn [combine app map fold_right fst snd vx vy]. lra.
  - rewrite centroid_eq. unfold esum, rsum, square, edges, cx, cy, crs. cbn [combine app map fold_right fst snd vx vy]. apply vec_eq; cbn [vx vy]; lra.
  - rewrite moment_eq; [|cbn; lia|unfold esum, rsum, square, edges, crs; cbn [combine app map fold_right fst snd vx vy]; lra]. unfold esum, rsum, square, edges, mq, crs, inner, vplus. cbn [combine app map fold_right fst snd vx vy]. lra.
Qed.
Print Assumptions C48_moment_parallel_axis.

(** ** C79: the documentation of AreaForPoly says that clockwise winding gives a positive area. *)
Theorem C79_documented_sign_refuted : exists vs : list RV, convex_ccw (rev vs) /\ area_for_poly vs 0 < 0.
Proof. exists (rev square). rewrite rev_involutive. split; [apply square_ccw|]. apply C48_area_sign, square_ccw. Qed.
(** ** C80: with two vertices MomentForPoly ignores the offset. *)
Theorem C80_two_vertices_refuted : exists (m : R) (vs : list RV) o r, length vs = 2%nat /\ moment_for_poly m (map (vplus o) vs) (mkV 0 0) r <> moment_for_poly m vs o r.
Proof.
  exists 12, [mkV 0 0; mkV 0 0], (mkV 1 0), 0. split; [reflexivity|]. unfold moment_for_poly, moment_for_segment, vlerp, vlensq, vdist, vlen. cbn [map]. unR. unfold vadd, vmult, vsub, vdot, vplus. unR. cbn [vx vy].
  replace ((1 + 0 - (1 + 0)) * (1 + 0 - (1 + 0)) + (0 + 0 - (0 + 0)) * (0 + 0 - (0 + 0))) with 0 by ring. replace ((0 - 0) * (0 - 0) + (0 - 0) * (0 - 0)) with 0 by ring. rewrite sqrt_0. lra.
Qed.
