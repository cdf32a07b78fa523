(** A shape's box and its queries: over the reals, whatever a point query finds near or a segment query hits is inside the box. *)
From Coq Require Import Reals ZArith Bool List Arith Lia Lra Permutation.
From Verif Require Import Num Spec SpecShapes SpecIndex SpecQuery.
From Verif.Model Require Import Vector BB BBTree Transform Shapes Handlers Collision Query.
From Verif.Proofs Require Import RTac Util BBOrder Geom ShapePf PolyPf PolyPf2 SegQPf.
Import ListNotations.
Local Open Scope R_scope.

Lemma list_max (g : RV -> R) (l : list RV) : l <> [] -> exists v, In v l /\ forall w, In w l -> g w <= g v.
Proof.
  induction l as [|x l IH]; [congruence|]. intros _. destruct l as [|y l]; [exists x; split; [now left|intros w [<-|[]]; lra]|]. destruct IH as (v & I & M); [discriminate|].
  destruct (Rle_dec (g x) (g v)) as [L|L]; [exists v; split; [now right|]; intros w [<-|J]; auto|]. exists x. split; [now left|]. intros w [<-|J]; [lra|]. pose proof (M w J). lra.
Qed.
Lemma wedge (u v w p : RV) : vscale (turn u v w) (vminus p v) = vplus (vscale (turn v w p) (vminus u v)) (vscale (turn u v p) (vminus w v)).
Proof. apply vec_eq; unfold turn, vscale, vminus, vplus; cbn [vx vy]; ring. Qed.
Lemma region_support ws p n : convex_ccw ws -> region ws p -> exists v, In v ws /\ inner p n <= inner v n.
Proof.
  intros CV Rp. assert (NE : ws <> []) by (intros ->; destruct CV as [L _]; cbn in L; lia). destruct (list_max (fun v => inner v n) ws NE) as (v & I & M). exists v. split; [exact I|].
  assert (X : exists u, In (u, v) (ring ws)). { rewrite <- (ring_snd ws) in I. apply in_map_iff in I as ([u v'] & E & I). cbn in E. subst v'. eauto. }
  destruct X as (u & Huv). destruct (ring_succ ws u v Huv) as (w & Hvw). assert (D0 : 0 <= turn u v w) by (apply (vertex_region ws CV w); auto; now apply ring_in in Hvw). destruct D0 as [D|D].
  2:{ (* v is in the middle of an edge: the whole edge is extreme *)
    destruct (cv_flat ws CV u v w Huv Hvw (eq_sym D)) as (m & Mm & Em). assert (E1 := f_equal vx Em). assert (E2 := f_equal vy Em). unfold vminus, vscale in E1, E2. cbn [vx vy] in E1, E2.
    pose proof (M u (proj1 (ring_in ws u v Huv))) as Mu. pose proof (M w (proj2 (ring_in ws v w Hvw))) as Mw. cbn beta in Mu, Mw. unfold inner in *.
    destruct (cv_left ws CV u v Huv) as (y & Iy & Py). pose proof (M y Iy) as My. cbn beta in My. pose proof (cv_on ws CV u v Huv) as Dn. pose proof (Rp u v Huv) as Pp.
    set (ex := vx v - vx u) in *. set (ey := vy v - vy u) in *. assert (C0 : ex * vx n + ey * vy n = 0) by (unfold ex, ey in *; nra).
    assert (Dn' : 0 < ex * ex + ey * ey) by (unfold ex, ey, dist2 in *; nra).
    (* n = h * perp e *)
    set (h := (ex * vy n - ey * vx n)). 
    assert (K : forall q, (ex * ex + ey * ey) * ((vx q * vx n + vy q * vy n) - (vx u * vx n + vy u * vy n)) = turn u v q * h + (ex * vx n + ey * vy n) * ((vx q - vx u) * ex + (vy q - vy u) * ey)) by (intros q; unfold turn, h; fold ex ey; ring).
    pose proof (K y) as Ky. pose proof (K v) as Kv. pose proof (K p) as Kp. rewrite C0 in Ky, Kv, Kp. assert (Tv : turn u v v = 0) by (unfold turn; ring). rewrite Tv in Kv.
    set (Y := vx y * vx n + vy y * vy n) in *. set (VV := vx v * vx n + vy v * vy n) in *. set (U := vx u * vx n + vy u * vy n) in *. set (P := vx p * vx n + vy p * vy n) in *. set (N := ex * ex + ey * ey) in *.
    assert (VU : VV = U) by nra. assert (H0 : h <= 0) by nra. assert (N * (P - U) <= 0) by nra. nra. }
  pose proof (Rp u v Huv) as A. pose proof (Rp v w Hvw) as B.
  pose proof (M u (proj1 (ring_in ws u v Huv))) as Mu. pose proof (M w (proj2 (ring_in ws v w Hvw))) as Mw. cbn beta in Mu, Mw.
  pose proof (wedge u v w p) as K. assert (K1 := f_equal vx K). assert (K2 := f_equal vy K). unfold vscale, vminus, vplus in K1, K2. cbn [vx vy] in K1, K2. unfold inner in *.
  assert (turn u v w * ((vx p * vx n + vy p * vy n) - (vx v * vx n + vy v * vy n)) <= 0).
  { replace (turn u v w * ((vx p * vx n + vy p * vy n) - (vx v * vx n + vy v * vy n))) with ((turn u v w * (vx p - vx v)) * vx n + (turn u v w * (vy p - vy v)) * vy n) by ring. rewrite K1, K2.
    replace ((turn v w p * (vx u - vx v) + turn u v p * (vx w - vx v)) * vx n + (turn v w p * (vy u - vy v) + turn u v p * (vy w - vy v)) * vy n) with (turn v w p * ((vx u * vx n + vy u * vy n) - (vx v * vx n + vy v * vy n)) + turn u v p * ((vx w * vx n + vy w * vy n) - (vx v * vx n + vy v * vy n))) by ring.
    assert (forall x y, 0 <= x -> y <= 0 -> x * y <= 0) as S by (intros; nra). pose proof (S _ _ B (Rle_minus _ _ Mu)). pose proof (S _ _ A (Rle_minus _ _ Mw)). lra. }
  nra.
Qed.
(** points within [r] of the region of a polygon are in its box *)
Lemma region_near_box vs r (t : Transform R) p q : convex_ccw vs -> rigid t -> region (map (t_point t) vs) q -> dist p q <= r -> in_box (snd (poly_cache (poly_planes vs) r t)) p.
Proof.
  intros CV Rt Rq D. pose proof (convex_rigid t vs Rt CV) as CW. set (ws := map (t_point t) vs) in *. set (B := snd _).
  assert (VB : forall v, In v ws -> in_box B (vplus v (vminus p q))).
  { intros v I. unfold ws in I. apply in_map_iff in I as (v' & <- & I). apply (poly_box_ok (poly_planes vs) r t v').
    - apply hull_vertex. unfold poly_planes. rewrite map_map. cbn [pl_v0]. unfold loop. rewrite combine_shift_snd. exact I.
    - replace (dist (vplus (t_point t v') (vminus p q)) (t_point t v')) with (dist p q); [exact D|]. unfold dist, dist2, vplus, vminus. cbn [vx vy]. f_equal. ring. }
  apply in_box_R.
  destruct (region_support ws q (mkV 1 0) CW Rq) as (v1 & I1 & L1). destruct (region_support ws q (mkV (-1) 0) CW Rq) as (v2 & I2 & L2). destruct (region_support ws q (mkV 0 1) CW Rq) as (v3 & I3 & L3). destruct (region_support ws q (mkV 0 (-1)) CW Rq) as (v4 & I4 & L4).
  apply VB in I1, I2, I3, I4. apply in_box_R in I1, I2, I3, I4. unfold inner, vplus, vminus in *. cbn [vx vy] in *. lra.
Qed.
Lemma shrink (p k : RV) r : 0 <= r -> exists q, dist q k <= r /\ dist p q <= Rmax (dist p k - r) 0.
Proof.
  intros R0. destruct (Rle_dec (dist p k) r) as [L|L].
  - exists p. split; [exact L|]. replace (dist p p) with 0; [apply Rmax_r|]. unfold dist, dist2. replace (_ + _) with 0 by ring. now rewrite sqrt_0.
  - assert (DP : 0 < dist p k) by lra. set (s := r / dist p k). assert (S01 : 0 <= s <= 1) by (unfold s; split; [apply Rmult_le_pos; [lra|left; now apply Rinv_0_lt_compat]|apply Rmult_le_reg_r with (dist p k); [lra|]; unfold Rdiv; rewrite Rmult_assoc, Rinv_l by lra; lra]).
    assert (SD : s * dist p k = r) by (unfold s; field; lra).
    exists (seg_point k p s). rewrite Rmax_left by lra.
    assert (E1 : dist (seg_point k p s) k = s * dist p k). { rewrite (dist_norm p k), <- norm_scale by lra. unfold dist, norm, dist2, norm2, seg_point, vscale, vminus. cbn [vx vy]. f_equal. ring. }
    assert (E2 : dist p (seg_point k p s) = (1 - s) * dist p k). { rewrite (dist_norm p k), <- norm_scale by lra. unfold dist, norm, dist2, norm2, seg_point, vscale, vminus. cbn [vx vy]. f_equal. ring. }
    rewrite E1, E2. lra.
Qed.
Lemma near_point s B p : placed s B -> in_range p s -> exists q, in_box B q /\ dist p q <= Rmax (pi_dist (point_query s p)) 0.
Proof.
  intros PL IR. destruct PL as [c r t R0|a b r t R0 NE Rt|vs r t R0 CV Rt].
  - destruct (shrink p (t_point t c) r R0) as (q & Q1 & Q2). exists q. split; [now apply circle_box|]. unfold point_query, circle_point_query. cbn [pi_dist]. rewrite vlen_norm. exact Q2.
  - set (s := new_segment a b r). destruct (seg_cache_pts s t) as (E1 & E2 & E3). cbn [point_query pi_dist]. unfold seg_point_query. cbn [pi_dist]. rewrite E1, E2, E3. change (sg_r s) with r. set (k := closest_point_on_segment p _ _). rewrite vlen_norm. change (norm (vsub p k)) with (dist p k).
    destruct (shrink p k r R0) as (q & Q1 & Q2). exists q. split; [|exact Q2]. assert (K : on_segment (t_point t a) (t_point t b) k) by (apply on_seg_flip; apply closest_point_on). destruct K as (u & U & K).
    apply (seg_box s t (seg_point a b u)); [exists u; auto|]. change (sg_r s) with r. replace (t_point t (seg_point a b u)) with k; auto. rewrite K. apply vec_eq; unfold seg_point, t_point; unR; cbn [vx vy]; ring.
  - set (ws := map (t_point t) vs). assert (MX : exists q, boundary ws q /\ dist p q < MaxFloat64).
    { destruct IR as (q & Iq & D). exists (pl_v0 q). split; [|exact D]. assert (NE : vs <> []) by (intros ->; destruct CV as [L _]; cbn in L; lia). destruct (Forall2_in_r _ _ _ (planes_ok t vs r NE Rt) q Iq) as ([u v] & Ie & Pq & _). exists u, v. split; [exact Ie|]. rewrite Pq. apply on_seg_r. }
    change (point_query (Poly ?ps r) p) with (poly_point_query ps r p). destruct (poly_pq vs r t p CV Rt R0 MX) as (d & DB & IN & OUT & _). fold ws in DB, IN, OUT.
    destruct (classic_ex (ring ws) p) as [(x & y & Ixy & N)|Rp].
    + assert (NR : ~ region ws p) by (intros Q; pose proof (Q x y Ixy); lra). destruct (OUT NR) as (((k & Rk & Dk) & _) & ->). rewrite <- Dk. destruct (shrink p k r R0) as (q & Q1 & Q2). exists q. split; [|exact Q2]. now apply (region_near_box vs r t q k).
    + exists p. assert (Z : dist p p = 0) by (unfold dist, dist2; replace (_ + _) with 0 by ring; now rewrite sqrt_0). split; [|rewrite Z; apply Rmax_r]. apply (region_near_box vs r t p p); auto. rewrite Z. exact R0.
Qed.
Lemma near_intersects s B p md : placed s B -> in_range p s -> pi_dist (point_query s p) < md -> bb_intersects B (bb_circle p (Rmax md 0)) = true.
Proof.
  intros PL IR L. destruct (near_point s B p PL IR) as (q & Q & D). apply in_box_R in Q. assert (D' : dist p q <= Rmax md 0) by (eapply Rle_trans; [exact D|]; rminmax; lra). apply dist_coord in D' as [D1 D2]. apply abs_bounds in D1, D2.
  unfold bb_intersects, bb_circle, bb_extents. unR. cbn [bl bb br bt]. repeat (apply andb_true_intro; split); apply Rleb_true; lra.
Qed.
Lemma start_in s B p : placed s B -> in_range p s -> pi_dist (point_query s p) <= 0 -> in_box B p.
Proof.
  intros PL IR L. destruct (near_point s B p PL IR) as (q & Q & D). rewrite Rmax_right in D by lra. apply dist_coord in D as [D1 D2]. apply abs_bounds in D1, D2. apply in_box_R in Q. apply in_box_R. lra.
Qed.
