(** Point queries (C45). *)
From Coq Require Import Reals ZArith Bool List Lra Lia Psatz.
From Verif Require Import Num Spec SpecShapes.
From Verif.Model Require Import Vector BB Transform Shapes.
From Verif.Proofs Require Import RTac Geom ShapePf.
Import ListNotations.

Lemma sq_pos x : 0 <= x * x. Proof. exact (Rle_0_sqr x). Qed.
Lemma dist_sq p q : dist p q * dist p q = dist2 p q. Proof. apply sqrt_sqrt. apply dist2_nonneg. Qed.
Lemma dist_le_sq p q r s : dist2 p q <= dist2 r s <-> dist p q <= dist r s.
Proof.
  split; intros L; [now apply sqrt_le_1_alt|]. rewrite <- !dist_sq. pose proof (dist_nonneg p q). pose proof (dist_nonneg r s). nra.
Qed.
Lemma dist_0 p q : dist p q = 0 <-> p = q.
Proof.
  split.
  - intros D. assert (E : dist2 p q = 0) by (rewrite <- dist_sq, D; ring). unfold dist2 in E. pose proof (sq_pos (vx p - vx q)). pose proof (sq_pos (vy p - vy q)). apply vec_eq; [assert (vx p - vx q = 0) by nra|assert (vy p - vy q = 0) by nra]; lra.
  - intros ->. unfold dist, dist2. replace (_ + _) with 0 by ring. apply sqrt_0.
Qed.
Lemma dist_pos p q : p <> q -> 0 < dist p q.
Proof. intros N. destruct (dist_nonneg p q) as [D|D]; auto. symmetry in D. apply dist_0 in D. contradiction. Qed.
Lemma norm_add u v : norm (vplus u v) <= norm u + norm v.
Proof.
  pose proof (cauchy_schwarz u v) as C. apply abs_bounds in C. pose proof (norm_sq u). pose proof (norm_sq v). pose proof (norm_sq (vplus u v)). pose proof (norm_nonneg u). pose proof (norm_nonneg v). pose proof (norm_nonneg (vplus u v)).
  assert (E : norm2 (vplus u v) = norm2 u + 2 * inner u v + norm2 v) by (unfold norm2, inner, vplus; cbn; ring). nra.
Qed.
Lemma dist_tri p q r : dist p r <= dist p q + dist q r.
Proof. rewrite !dist_norm. replace (vminus p r) with (vplus (vminus p q) (vminus q r)); [apply norm_add|]. apply vec_eq; unfold vplus, vminus; cbn; ring. Qed.
Lemma dist_ray c u k : 0 <= k -> dist (vplus c (vscale k u)) c = k * norm u.
Proof. intros K. rewrite dist_norm. rewrite <- norm_scale by auto. f_equal. apply vec_eq; unfold vminus, vplus, vscale; cbn; ring. Qed.
Lemma inner_dist2 p c q : dist2 p q = dist2 p c - 2 * inner (vminus p c) (vminus q c) + dist2 c q.
Proof. unfold dist2, inner, vminus. cbn. ring. Qed.

(** the nearest point of a convex set *)
Definition convex (S : RV -> Prop) : Prop := forall p q x, S p -> S q -> on_segment p q x -> S x.
Lemma nearest_inner (S : RV -> Prop) p c : convex S -> S c -> (forall q, S q -> dist p c <= dist p q) -> forall q, S q -> inner (vminus p c) (vminus q c) <= 0.
Proof.
  intros CV Sc N q Sq. apply Rnot_lt_le. intros L. set (i := inner (vminus p c) (vminus q c)) in *. set (n := dist2 c q).
  assert (Np : 0 < n). { destruct (dist2_nonneg c q) as [D|D]; auto. exfalso. assert (c = q) by (apply dist_0; unfold dist; rewrite <- D; apply sqrt_0). subst q. unfold i, inner, vminus in L. cbn in L. lra. }
  set (s := Rmin 1 (i / n)). assert (Sp : 0 < s <= 1). { unfold s. split; [apply Rmin_pos; [lra|now apply Rdiv_lt_0_compat]|apply Rmin_l]. }
  assert (Sn : s * n <= i). { unfold s. pose proof (Rmin_r 1 (i / n)). apply Rmult_le_compat_r with (r := n) in H; [|lra]. unfold Rdiv in H at 2. rewrite Rmult_assoc, Rinv_l in H by lra. lra. }
  assert (Sx : S (seg_point c q s)) by (apply (CV c q); auto; exists s; split; [lra|reflexivity]).
  apply N in Sx. apply dist_le_sq in Sx. assert (E : dist2 p (seg_point c q s) = dist2 p c - 2 * s * i + s * s * n) by (unfold i, n, dist2, seg_point, inner, vminus; cbn; ring). rewrite E in Sx. nra.
Qed.
Lemma supported (S : RV -> Prop) c u k : S c -> (forall q, S q -> inner u (vminus q c) <= 0) -> 0 <= k -> distance_to S (vplus c (vscale k u)) (k * norm u).
Proof.
  intros Sc N K. split; [exists c; split; auto; now apply dist_ray|]. intros q Sq. rewrite <- dist_ray with (c := c) by auto. apply dist_le_sq. rewrite (inner_dist2 (vplus c (vscale k u)) c q).
  assert (E : inner (vminus (vplus c (vscale k u)) c) (vminus q c) = k * inner u (vminus q c)) by (unfold inner, vminus, vplus, vscale; cbn; ring). rewrite E. specialize (N q Sq). pose proof (dist2_nonneg c q). nra.
Qed.
Lemma convex_seg a b : convex (on_segment a b).
Proof.
  intros p q x (s & S & ->) (t & Tt & ->) (w & W & ->). exists (s + w * (t - s)). split; [nra|]. apply vec_eq; unfold seg_point; cbn; ring.
Qed.
Lemma unit_ray p c r : p <> c -> let g := vmult (vsub p c) (1 / dist p c) in norm g = 1 /\ vadd c (vmult g r) = vplus c (vscale r g) /\ vsub p c = vscale (dist p c) g /\ dist p (vadd c (vmult g r)) = Rabs (dist p c - r).
Proof.
  intros N g. assert (D := dist_pos _ _ N). assert (G : norm g = 1).
  { unfold g. assert (E : vmult (vsub p c) (1 / dist p c) = vscale (1 / dist p c) (vminus p c)) by (apply vec_eq; unfold vmult, vsub, vscale, vminus; unR; cbn [vx vy]; ring). rewrite E, norm_scale, <- dist_norm; [field; lra|]. apply Rlt_le. apply Rdiv_lt_0_compat; lra. }
  split; auto. split; [apply vec_eq; unfold vadd, vmult, vplus, vscale; unR; cbn; ring|]. assert (E2 : vsub p c = vscale (dist p c) g) by (unfold g; apply vec_eq; unfold vmult, vsub, vscale; unR; cbn [vx vy]; field; lra). split; [exact E2|].
  assert (E3 : dist2 p (vadd c (vmult g r)) = (dist p c - r) * (dist p c - r) * norm2 g).
  { clearbody g. assert (Ex : vx p - vx c = dist p c * vx g) by (change (vx p - vx c) with (vx (vsub p c)); rewrite E2; reflexivity). assert (Ey : vy p - vy c = dist p c * vy g) by (change (vy p - vy c) with (vy (vsub p c)); rewrite E2; reflexivity).
    unfold dist2, norm2, vadd, vmult. unR. cbn [vx vy]. replace (vx p - (vx c + vx g * r)) with ((vx p - vx c) - vx g * r) by ring. replace (vy p - (vy c + vy g * r)) with ((vy p - vy c) - vy g * r) by ring. rewrite Ex, Ey. ring. }
  unfold dist at 1. rewrite E3, <- norm_sq, G, !Rmult_1_r. apply sqrt_Rsqr_abs.
Qed.

(** ** circles *)
Lemma dist_vlen p c : vlen (vsub p c) = dist p c. Proof. apply vdist_dist. Qed.
Lemma circle_pq c r p : 0 <= r -> p <> c -> let i := circle_point_query c r p in
  pi_dist i = dist p c - r /\ dist (pi_point i) c = r /\ dist p (pi_point i) = Rabs (pi_dist i) /\ (1 / 100000 < dist p c -> norm (pi_grad i) = 1 /\ vsub p c = vscale (dist p c) (pi_grad i)).
Proof.
  intros R0 N. cbv zeta. unfold circle_point_query. rewrite dist_vlen. cbn [pi_point pi_dist pi_grad]. unR. assert (D := dist_pos _ _ N).
  destruct (unit_ray p c r N) as (G1 & G2 & G3 & G4). cbv zeta in *. set (g := vmult (vsub p c) (1 / dist p c)) in *.
  assert (E : vadd c (vmult (vsub p c) (r / dist p c)) = vadd c (vmult g r)). { unfold g. apply vec_eq; unfold vadd, vmult, vsub; unR; cbn [vx vy]; field; lra. } rewrite E.
  split; auto. split; [rewrite G2, dist_ray by auto; rewrite G1; ring|]. split; auto. unfold magic_epsilon. unR. intros L. destruct (Rltb (1 / 100000) (dist p c)) eqn:Q; rbool; [auto|lra].
Qed.

(** ** segments *)
Lemma seg_pq (s : Seg R) p : 0 <= sg_r s -> sg_ta s <> sg_tb s -> ~ on_segment (sg_ta s) (sg_tb s) p -> let i := seg_point_query s p in
  exists d, distance_to (on_segment (sg_ta s) (sg_tb s)) p d /\ pi_dist i = d - sg_r s /\ distance_to (on_segment (sg_ta s) (sg_tb s)) (pi_point i) (sg_r s) /\ dist p (pi_point i) = Rabs (pi_dist i) /\
    (1 / 100000 < d -> norm (pi_grad i) = 1 /\ p = vplus (pi_point i) (vscale (pi_dist i) (pi_grad i))).
Proof.
  intros R0 NE NO. cbv zeta. unfold seg_point_query. set (c := closest_point_on_segment p (sg_ta s) (sg_tb s)). rewrite dist_vlen. cbn [pi_point pi_dist pi_grad]. unR.
  assert (OC : on_segment (sg_ta s) (sg_tb s) c). { destruct (closest_point_on p (sg_ta s) (sg_tb s)) as (u & U & E). fold c in E. exists (1 - u). split; [lra|]. rewrite E. apply vec_eq; unfold seg_point; cbn; ring. }
  assert (NN : forall q, on_segment (sg_ta s) (sg_tb s) q -> dist p c <= dist p q) by (intros q Q; apply dist_le_sq; apply (closest_point_nearest p (sg_ta s) (sg_tb s) q NE Q)).
  assert (N : p <> c) by (intros E; apply NO; rewrite E; exact OC). assert (D := dist_pos _ _ N). destruct (unit_ray p c (sg_r s) N) as (G1 & G2 & G3 & G4). cbv zeta in *. set (g := vmult (vsub p c) (1 / dist p c)) in *.
  destruct (Reqb (dist p c) 0) eqn:Z; rbool; [lra|]. exists (dist p c). split; [split; eauto|]. split; auto. split.
  - rewrite G2. replace (sg_r s) with (sg_r s * norm g) at 2 by (rewrite G1; ring). apply supported; auto. intros q Q. assert (I := nearest_inner _ p c (convex_seg _ _) OC NN q Q).
    replace (vminus p c) with (vscale (dist p c) g) in I by (rewrite <- G3; reflexivity). assert (E : inner (vscale (dist p c) g) (vminus q c) = dist p c * inner g (vminus q c)) by (unfold inner, vscale; cbn; ring). rewrite E in I. nra.
  - split; auto. unfold magic_epsilon. unR. intros L. destruct (Rltb (1 / 100000) (dist p c)) eqn:Q; rbool; [|lra]. split; auto. rewrite G2.
    assert (Ex : vx p - vx c = dist p c * vx g) by (change (vx p - vx c) with (vx (vsub p c)); rewrite G3; reflexivity). assert (Ey : vy p - vy c = dist p c * vy g) by (change (vy p - vy c) with (vy (vsub p c)); rewrite G3; reflexivity).
    clearbody g. apply vec_eq; unfold vplus, vscale; cbn [vx vy]; lra.
Qed.
