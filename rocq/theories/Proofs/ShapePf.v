(** Boxes and point queries of shapes (C44, C45). *)
From Coq Require Import Reals ZArith Bool List Lra Lia Psatz.
From Verif Require Import Num Spec SpecShapes.
From Verif.Model Require Import Vector BB Transform Shapes.
From Verif.Proofs Require Import RTac Geom.
Import ListNotations.

Lemma dist_nonneg p q : 0 <= dist p q. Proof. apply sqrt_pos. Qed.
Lemma dist_sym p q : dist p q = dist q p. Proof. unfold dist, dist2. f_equal. ring. Qed.
Lemma dist_norm p q : dist p q = norm (vminus p q).
Proof. reflexivity. Qed.
Lemma dist2_nonneg p q : 0 <= dist2 p q. Proof. unfold dist2. apply Rplus_le_le_0_compat; apply Rle_0_sqr. Qed.
Lemma dist_coord p q r : dist p q <= r -> Rabs (vx p - vx q) <= r /\ Rabs (vy p - vy q) <= r.
Proof.
  intros D. assert (0 <= r) by (pose proof (dist_nonneg p q); lra). assert (Q : dist2 p q <= r * r).
  { unfold dist in D. pose proof (sqrt_sqrt (dist2 p q) (dist2_nonneg p q)). pose proof (sqrt_pos (dist2 p q)). nra. }
  unfold dist2 in Q. pose proof (Rle_0_sqr (vx p - vx q)) as N1. pose proof (Rle_0_sqr (vy p - vy q)) as N2. unfold Rsqr in N1, N2. split; apply abs_le_of_sq; lra.
Qed.
Lemma abs_bounds x r : Rabs x <= r <-> - r <= x <= r.
Proof. split; intros; [split; unfold Rabs in *; destruct (Rcase_abs x); lra|]. unfold Rabs. destruct (Rcase_abs x); lra. Qed.

(** ** C44 *)
Lemma circle_box c r (t : Transform R) p : dist p (t_point t c) <= r -> in_box (snd (circle_cache c r t)) p.
Proof.
  intros D. apply dist_coord in D as [D1 D2]. apply abs_bounds in D1, D2. apply in_box_R. unfold circle_cache, bb_circle, bb_extents. unR. cbn [snd bl bb br bt vx vy]. lra.
Qed.
Lemma seg_coord a b q : on_segment a b q -> Rmin (vx a) (vx b) <= vx q <= Rmax (vx a) (vx b) /\ Rmin (vy a) (vy b) <= vy q <= Rmax (vy a) (vy b).
Proof. intros (s & S & ->). unfold seg_point. cbn [vx vy]. split; rminmax; nra. Qed.
Lemma point_seg (t : Transform R) a b q : on_segment a b q -> on_segment (t_point t a) (t_point t b) (t_point t q).
Proof. intros (s & S & ->). exists s. split; auto. apply vec_eq; unfold seg_point, t_point; unR; cbn [vx vy]; ring. Qed.
Lemma seg_box (s : Seg R) (t : Transform R) q p : on_segment (sg_a s) (sg_b s) q -> dist p (t_point t q) <= sg_r s -> in_box (snd (seg_cache s t)) p.
Proof.
  intros Q D. apply (point_seg t) in Q. apply seg_coord in Q as [Q1 Q2]. apply dist_coord in D as [D1 D2]. apply abs_bounds in D1, D2. apply in_box_R.
  unfold seg_cache. unR. set (ta := t_point t (sg_a s)) in *. set (tb := t_point t (sg_b s)) in *.
  destruct (Rltb (vx ta) (vx tb)) eqn:E1, (Rltb (vy ta) (vy tb)) eqn:E2; rbool; cbn [snd bl bb br bt]; rewrite ?Rmin_left, ?Rmax_right, ?Rmin_right, ?Rmax_left in Q1 by lra; rewrite ?Rmin_left, ?Rmax_right, ?Rmin_right, ?Rmax_left in Q2 by lra; lra.
Qed.
Lemma fold_min_le {A} (f : A -> R) l : forall m, fold_left (fun m q => Rmin m (f q)) l m <= m /\ forall q, In q l -> fold_left (fun m q => Rmin m (f q)) l m <= f q.
Proof.
  induction l as [|a l IH]; intros m; cbn [fold_left In]; [split; [lra|tauto]|]. destruct (IH (Rmin m (f a))) as [A1 A2]. pose proof (Rmin_l m (f a)). pose proof (Rmin_r m (f a)). split; [lra|]. intros q [->|Q]; [lra|auto].
Qed.
Lemma fold_max_ge {A} (f : A -> R) l : forall m, m <= fold_left (fun m q => Rmax m (f q)) l m /\ forall q, In q l -> f q <= fold_left (fun m q => Rmax m (f q)) l m.
Proof.
  induction l as [|a l IH]; intros m; cbn [fold_left In]; [split; [lra|tauto]|]. destruct (IH (Rmax m (f a))) as [A1 A2]. pose proof (Rmax_l m (f a)). pose proof (Rmax_r m (f a)). split; [lra|]. intros q [->|Q]; [lra|auto].
Qed.
Lemma fold_min_in {A} (f : A -> R) l : forall m, fold_left (fun m q => Rmin m (f q)) l m = m \/ exists q, In q l /\ fold_left (fun m q => Rmin m (f q)) l m = f q.
Proof.
  induction l as [|a l IH]; intros m; cbn [fold_left In]; [auto|]. destruct (IH (Rmin m (f a))) as [E|(q & Q & E)]; [|right; exists q; auto]. rewrite E. unfold Rmin. destruct (Rle_dec m (f a)); [auto|right; exists a; auto].
Qed.
Lemma fold_max_in {A} (f : A -> R) l : forall m, fold_left (fun m q => Rmax m (f q)) l m = m \/ exists q, In q l /\ fold_left (fun m q => Rmax m (f q)) l m = f q.
Proof.
  induction l as [|a l IH]; intros m; cbn [fold_left In]; [auto|]. destruct (IH (Rmax m (f a))) as [E|(q & Q & E)]; [|right; exists q; auto]. rewrite E. unfold Rmax. destruct (Rle_dec m (f a)); [right; exists a; auto|auto].
Qed.
Lemma hull_map (t : Transform R) vs q : in_hull vs q -> in_hull (map (t_point t) vs) (t_point t q).
Proof. induction 1 as [v V|p q x P IP Q IQ X]; [apply hull_vertex; now apply in_map|]. eapply hull_between; [exact IP|exact IQ|]. now apply point_seg. Qed.
Lemma hull_box vs (B : BB R) : (forall v, In v vs -> in_box B v) -> forall q, in_hull vs q -> in_box B q.
Proof.
  intros V q. induction 1 as [v I|p q x P IP Q IQ X]; [auto|]. apply in_box_R in IP, IQ. apply in_box_R. apply seg_coord in X as [X1 X2].
  destruct (Rle_dec (vx p) (vx q)); [rewrite Rmin_left, Rmax_right in X1 by lra|rewrite Rmin_right, Rmax_left in X1 by lra]; (destruct (Rle_dec (vy p) (vy q)); [rewrite Rmin_left, Rmax_right in X2 by lra|rewrite Rmin_right, Rmax_left in X2 by lra]); lra.
Qed.
Lemma poly_box_ok (ps : list (Plane R)) r (t : Transform R) q p : in_hull (map pl_v0 ps) q -> dist p (t_point t q) <= r -> in_box (snd (poly_cache ps r t)) p.
Proof.
  intros Q D. apply (hull_map t) in Q. unfold poly_cache, poly_box. cbn [snd]. set (d := poly_transform t ps).
  assert (E : map (t_point t) (map pl_v0 ps) = map pl_v0 d) by (unfold d, poly_transform; rewrite !map_map; apply map_ext; reflexivity). rewrite E in Q.
  apply dist_coord in D as [D1 D2]. apply abs_bounds in D1, D2. unR.
  destruct (fold_min_le (fun q => vx (pl_v0 q)) d MaxFloat64) as [_ A1]. destruct (fold_max_ge (fun q => vx (pl_v0 q)) d (- MaxFloat64)) as [_ A2].
  destruct (fold_min_le (fun q => vy (pl_v0 q)) d MaxFloat64) as [_ A3]. destruct (fold_max_ge (fun q => vy (pl_v0 q)) d (- MaxFloat64)) as [_ A4].
  set (l := fold_left (fun m q => Rmin m (vx (pl_v0 q))) d MaxFloat64) in *. set (rr := fold_left (fun m q => Rmax m (vx (pl_v0 q))) d (- MaxFloat64)) in *.
  set (b := fold_left (fun m q => Rmin m (vy (pl_v0 q))) d MaxFloat64) in *. set (tt := fold_left (fun m q => Rmax m (vy (pl_v0 q))) d (- MaxFloat64)) in *.
  assert (K : in_box (mkBB l b rr tt) (t_point t q)).
  { apply (hull_box (map pl_v0 d)); auto. intros v V. apply in_map_iff in V as (x & <- & X). apply in_box_R. cbn. pose proof (A1 _ X). pose proof (A2 _ X). pose proof (A3 _ X). pose proof (A4 _ X). lra. }
  apply in_box_R in K. cbn [bl bb br bt] in K. apply in_box_R. cbn [bl bb br bt]. lra.
Qed.
(** the boxes are no larger than they must be: each side touches the shape *)
Definition touched (B : BB R) (S : RV -> Prop) : Prop :=
  (exists p, S p /\ vx p = bl B) /\ (exists p, S p /\ vx p = br B) /\ (exists p, S p /\ vy p = bb B) /\ (exists p, S p /\ vy p = bt B).
Lemma dist_shift (q : RV) dx dy r : 0 <= r -> dx * dx + dy * dy = r * r -> dist (mkV (vx q + dx) (vy q + dy)) q = r.
Proof. intros Z E. unfold dist, dist2. cbn [vx vy]. replace (_ + _) with (r * r) by (rewrite <- E; ring). now apply sqrt_square. Qed.
Ltac ex4 a b c d := split; [exists a|split; [exists b|split; [exists c|exists d]]].
Lemma touch_points (S : RV -> Prop) l b r t rad : 0 <= rad -> (exists q, S q /\ vx q = l) -> (exists q, S q /\ vy q = b) -> (exists q, S q /\ vx q = r) -> (exists q, S q /\ vy q = t) ->
  touched (mkBB (l - rad) (b - rad) (r + rad) (t + rad)) (near S rad).
Proof.
  intros Z (q1 & S1 & <-) (q2 & S2 & <-) (q3 & S3 & <-) (q4 & S4 & <-). unfold touched. cbn [bl bb br bt].
  ex4 (mkV (vx q1 + - rad) (vy q1 + 0)) (mkV (vx q3 + rad) (vy q3 + 0)) (mkV (vx q2 + 0) (vy q2 + - rad)) (mkV (vx q4 + 0) (vy q4 + rad)); cbn [vx vy]; (split; [|lra]);
  [exists q1|exists q3|exists q2|exists q4]; (split; [assumption|]); rewrite (dist_shift _ _ _ rad) by (auto; ring); lra.
Qed.
Lemma circle_tight c r (t : Transform R) : 0 <= r -> touched (snd (circle_cache c r t)) (near (fun q => q = t_point t c) r).
Proof. intros Z. unfold circle_cache, bb_circle, bb_extents. unR. cbn [snd]. apply touch_points; auto; eexists; split; reflexivity. Qed.
Lemma on_seg_l a b : on_segment a b a. Proof. exists 0. split; [lra|]. destruct a. apply vec_eq; unfold seg_point; cbn; ring. Qed.
Lemma on_seg_r a b : on_segment a b b. Proof. exists 1. split; [lra|]. destruct b. apply vec_eq; unfold seg_point; cbn; ring. Qed.
Lemma seg_tight (s : Seg R) (t : Transform R) : 0 <= sg_r s -> touched (snd (seg_cache s t)) (near (on_segment (t_point t (sg_a s)) (t_point t (sg_b s))) (sg_r s)).
Proof.
  intros Z. unfold seg_cache. unR. set (ta := t_point t (sg_a s)) in *. set (tb := t_point t (sg_b s)) in *.
  pose proof (on_seg_l ta tb). pose proof (on_seg_r ta tb).
  destruct (Rltb (vx ta) (vx tb)), (Rltb (vy ta) (vy tb)); cbn [snd]; apply touch_points; eauto.
Qed.
Lemma poly_tight (ps : list (Plane R)) r (t : Transform R) : 0 <= r -> ps <> [] -> (forall q, In q ps -> Rabs (vx (t_point t (pl_v0 q))) <= MaxFloat64 /\ Rabs (vy (t_point t (pl_v0 q))) <= MaxFloat64) ->
  touched (snd (poly_cache ps r t)) (near (in_hull (map (t_point t) (map pl_v0 ps))) r).
Proof.
  intros Z NE B. unfold poly_cache, poly_box. cbn [snd]. set (d := poly_transform t ps). unR.
  assert (E : map (t_point t) (map pl_v0 ps) = map pl_v0 d) by (unfold d, poly_transform; rewrite !map_map; apply map_ext; reflexivity). rewrite E.
  assert (BD : forall q, In q d -> Rabs (vx (pl_v0 q)) <= MaxFloat64 /\ Rabs (vy (pl_v0 q)) <= MaxFloat64). { intros q Q. unfold d, poly_transform in Q. apply in_map_iff in Q as (x & <- & X). cbn. apply (B x X). }
  assert (exists q0, In q0 d) as (q0 & Q0). { destruct ps as [|x ps]; [congruence|]. eexists. left. reflexivity. }
  assert (V : forall q, In q d -> in_hull (map pl_v0 d) (pl_v0 q)) by (intros q Q; apply hull_vertex; now apply in_map).
  destruct (BD q0 Q0) as [B1 B2]. apply abs_bounds in B1, B2.
  apply touch_points; auto.
  - destruct (fold_min_le (fun q => vx (pl_v0 q)) d MaxFloat64) as [_ A]. specialize (A _ Q0). destruct (fold_min_in (fun q => vx (pl_v0 q)) d MaxFloat64) as [E1|(q & Q & E1)]; [exists (pl_v0 q0)|exists (pl_v0 q)]; (split; [auto|cbv beta in *; lra]).
  - destruct (fold_min_le (fun q => vy (pl_v0 q)) d MaxFloat64) as [_ A]. specialize (A _ Q0). destruct (fold_min_in (fun q => vy (pl_v0 q)) d MaxFloat64) as [E1|(q & Q & E1)]; [exists (pl_v0 q0)|exists (pl_v0 q)]; (split; [auto|cbv beta in *; lra]).
  - destruct (fold_max_ge (fun q => vx (pl_v0 q)) d (- MaxFloat64)) as [_ A]. specialize (A _ Q0). destruct (fold_max_in (fun q => vx (pl_v0 q)) d (- MaxFloat64)) as [E1|(q & Q & E1)]; [exists (pl_v0 q0)|exists (pl_v0 q)]; (split; [auto|cbv beta in *; lra]).
  - destruct (fold_max_ge (fun q => vy (pl_v0 q)) d (- MaxFloat64)) as [_ A]. specialize (A _ Q0). destruct (fold_max_in (fun q => vy (pl_v0 q)) d (- MaxFloat64)) as [E1|(q & Q & E1)]; [exists (pl_v0 q0)|exists (pl_v0 q)]; (split; [auto|cbv beta in *; lra]).
Qed.
