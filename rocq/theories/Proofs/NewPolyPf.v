(** The region of a convex polygon is the convex hull of its vertices, and the hull of any points not all in line is a convex polygon. *)
From Coq Require Import Reals ZArith Bool List Arith Lia Lra Psatz.
From Verif Require Import Num Spec SpecShapes.
From Verif.Model Require Import Vector BB Transform Shapes Hull NewPoly.
From Verif.Proofs Require Import RTac Geom ShapePf ShapePf2 PolyPf PolyPf2 HullPf HullGeo QueryGeo.
Import ListNotations.
Local Open Scope R_scope.

Lemma hull_in_region vs x : convex_ccw vs -> in_hull vs x -> region vs x.
Proof. intros CV H. induction H as [v V|p q x _ P _ Q O]; [now apply vertex_region|]. exact (region_convex vs p q x P Q O). Qed.
Lemma hull_trans vs ws x : (forall v, In v vs -> in_hull ws v) -> in_hull vs x -> in_hull ws x.
Proof. intros A H. induction H as [v V|p q x _ P _ Q O]; [auto|]. exact (hull_between ws p q x P Q O). Qed.
Lemma boundary_hull vs x : boundary vs x -> in_hull vs x.
Proof. intros (a & b & I & O). apply ring_in in I as [Ia Ib]. eapply hull_between; [apply hull_vertex; exact Ia|apply hull_vertex; exact Ib|exact O]. Qed.
Lemma region_in_hull vs p : convex_ccw vs -> region vs p -> in_hull vs p.
Proof.
  intros CV Rp. destruct vs as [|v0 vs'] eqn:EV; [destruct CV as [L _]; cbn in L; lia|]. rewrite <- EV in *. assert (V0 : In v0 vs) by (rewrite EV; now left).
  destruct (Req_dec (dist v0 p) 0) as [Z|NZ]. { apply dist_0 in Z. subst p. now apply hull_vertex. }
  (* a point beyond p, seen from v0, outside the region *)
  assert (D : 0 < dist2 v0 p). { rewrite <- dist_sq. pose proof (dist_nonneg v0 p). nra. }
  set (n := vminus p v0). assert (Nn : inner n n = dist2 v0 p) by (unfold n, inner, vminus, dist2; cbn [vx vy]; ring).
  destruct (list_max (fun v => inner v n) vs) as (m & Im & Mm); [rewrite EV; discriminate|].
  set (M := inner m n). set (k := 1 + Rmax 0 ((M - inner v0 n) / dist2 v0 p)). assert (K1 : 1 <= k) by (unfold k; pose proof (Rmax_l 0 ((M - inner v0 n) / dist2 v0 p)); lra).
  set (q := vplus v0 (vscale k n)).
  assert (KQ : M < inner q n). { assert (E : inner q n = inner v0 n + k * dist2 v0 p) by (rewrite <- Nn; unfold q, inner, vplus, vscale; cbn [vx vy]; ring). rewrite E.
    assert ((M - inner v0 n) / dist2 v0 p <= k - 1) by (unfold k; pose proof (Rmax_r 0 ((M - inner v0 n) / dist2 v0 p)); lra).
    assert (M - inner v0 n <= (k - 1) * dist2 v0 p). { replace (M - inner v0 n) with ((M - inner v0 n) / dist2 v0 p * dist2 v0 p) by (field; lra). apply Rmult_le_compat_r; lra. } lra. }
  assert (Nq : ~ region vs q). { intros Rq. destruct (region_support vs q n CV Rq) as (v & Iv & L). specialize (Mm v Iv). cbn beta in Mm. unfold M in KQ. lra. }
  assert (X : exists a b, In (a, b) (ring vs) /\ turn a b q < 0) by (destruct (classic_ex (ring vs) q) as [X|X]; [auto|contradiction]).
  destruct (enter (ring vs) q p Rp X) as (s & S & Rx & a & b & I & Z & _). set (x := seg_point q p s) in *.
  assert (Bx : boundary vs x). { destruct (tight_edge vs CV a b x I Rx Z) as (u & v & _ & Iu & Ou & _). exists u, v. auto. }
  apply (hull_between vs v0 x p); [now apply hull_vertex|now apply boundary_hull|].
  (* x = v0 + j n with j >= 1 *)
  set (j := (1 - s) * k + s). assert (J : 1 <= j) by (unfold j; nra). exists (/ j). split; [split; [left; apply Rinv_0_lt_compat; lra|rewrite <- Rinv_1; apply Rinv_le_contravar; lra]|].
  apply vec_eq; unfold seg_point, x, q, n, j, vplus, vscale, vminus in *; cbn [vx vy]; unfold seg_point; cbn [vx vy]; field; unfold j in J; lra.
Qed.
(** hull points in line with an edge whose line contains all the vertices *)
Lemma hull_line vs u w x : (forall v, In v vs -> turn u w v = 0) -> in_hull vs x -> turn u w x = 0.
Proof.
  intros A H. induction H as [v V|p q x _ P _ Q (s & S & ->)]; [auto|]. replace (turn u w (seg_point p q s)) with ((1 - s) * turn u w p + s * turn u w q) by (unfold turn, seg_point; cbn; ring). rewrite P, Q. ring.
Qed.
Lemma collinear u w a b c : u <> w -> turn u w a = 0 -> turn u w b = 0 -> turn u w c = 0 -> turn a b c = 0.
Proof.
  intros N A B C. assert (D : 0 < dist2 u w) by (rewrite <- dist_sq; pose proof (dist_pos _ _ N); nra).
  assert (E1 : (vx w - vx u) * turn a b c = (vx b - vx a) * (turn u w c - turn u w a) - (vx c - vx a) * (turn u w b - turn u w a)) by (unfold turn; ring).
  assert (E2 : (vy w - vy u) * turn a b c = (vy b - vy a) * (turn u w c - turn u w a) - (vy c - vy a) * (turn u w b - turn u w a)) by (unfold turn; ring).
  rewrite A, B, C in E1, E2. unfold dist2 in D. destruct (Req_dec (turn a b c) 0) as [Z|Z]; [exact Z|exfalso].
  assert (X : vx w - vx u = 0) by (apply (Rmult_eq_reg_r (turn a b c)); lra). assert (Y : vy w - vy u = 0) by (apply (Rmult_eq_reg_r (turn a b c)); lra). nra.
Qed.
Lemma hull_convex vs : (exists a b c, In a vs /\ In b vs /\ In c vs /\ turn a b c <> 0) ->
  exists arr n first, convex_hull vs 0 = Some (arr, n, first) /\ convex_ccw (firstn n arr) /\ incl (firstn n arr) vs /\ forall x, region (firstn n arr) x <-> in_hull vs x.
Proof.
  intros (a & b & c & Ha & Hb & Hc & Z). assert (Hn : vs <> []) by (intros ->; destruct Ha). destruct (hull_ok 0 vs (Rle_refl 0) Hn) as (arr & n & first & C & L & B & HH & HF & N1). exists arr, n, first. split; [exact C|].
  set (hull := firstn n arr) in *. assert (I := h_incl _ _ _ HH). assert (ND := h_nodup _ _ _ HH). assert (IH : forall x, In x vs -> in_hull hull x) by (intros x Hx; now apply (h_hull _ _ _ HH)).
  assert (L3 : (3 <= length hull)%nat).
  { destruct hull as [|p [|q [|r l]]]; [| | |cbn; lia]; exfalso.
    + specialize (IH a Ha). clear - IH. induction IH; auto.
    + apply Z. rewrite (hull1 p a), (hull1 p b), (hull1 p c) by auto. unfold turn. ring.
    + apply Z. destruct (hull2 p q a (IH a Ha)) as [s ->], (hull2 p q b (IH b Hb)) as [t ->], (hull2 p q c (IH c Hc)) as [v ->]. unfold turn, vplus, vscale, vminus. cbn [vx vy]. ring. }
  assert (CV : convex_ccw hull).
  { split; [exact L3|]. split; [exact ND|]. split; [intros u w x; apply (h_conv _ _ _ HH)|].
    destruct hull as [|v0 l] eqn:EH; [cbn in L3; lia|]. rewrite <- EH in *. assert (IE : In (last hull v0, v0) (ring hull)) by (rewrite EH; unfold ring; left; reflexivity).
    set (u := last hull v0) in *. assert (NE : u <> v0) by (intros E; rewrite E in IE; apply (ring_len2 hull v0 v0 ND L3 IE IE)).
    assert (X : (exists v, In v hull /\ 0 < turn u v0 v) \/ forall v, In v hull -> turn u v0 v = 0).
    { assert (G : forall m, incl m hull -> (exists v, In v m /\ 0 < turn u v0 v) \/ forall v, In v m -> turn u v0 v = 0).
      { induction m as [|v m IHm]; intros S; [right; intros v []|]. destruct (Rlt_dec 0 (turn u v0 v)) as [P|P]; [left; exists v; cbn; auto|]. destruct IHm as [(y & Y & L')|Y]; [intros y Y; apply S; cbn; auto|left; exists y; cbn; auto|].
        right. intros y [<-|Y']; [|auto]. assert (0 <= turn u v0 v) by (apply (h_conv _ _ _ HH u v0 v IE), S; cbn; auto). lra. }
      apply (G hull (fun x H => H)). }
    destruct X as [(v & V & P)|Y]; [exists u, v0, v; auto|]. exfalso. apply Z. apply (collinear u v0); auto; eapply hull_line; eauto. }
  split; [exact CV|]. split; [exact I|]. intros x. split.
  - intros R. apply (hull_incl hull); auto. now apply region_in_hull.
  - intros H. apply hull_in_region; auto. eapply hull_trans; eauto.
Qed.
(** inside, the distance to the boundary is the depth *)
Lemma depth vs p d : convex_ccw vs -> region vs p -> distance_to (boundary vs) p d -> (forall q, dist p q <= d -> region vs q) /\ forall eps, 0 < eps -> exists q, dist p q <= d + eps /\ ~ region vs q.
Proof.
  intros CV Rp ((c & Bc & Dc) & Mn). split.
  - intros q Dq. destruct (classic_ex (ring vs) q) as [X|X]; [exfalso|exact X]. destruct (enter (ring vs) q p Rp X) as (s & S & Rx & a & b & I & Z & LA).
    assert (Bx : boundary vs (seg_point q p s)). { destruct (tight_edge vs CV a b _ I Rx Z) as (u & v & _ & Iu & Ou & _). exists u, v. auto. }
    specialize (Mn _ Bx). assert (E : dist p (seg_point q p s) = (1 - s) * dist p q). { rewrite (dist_norm p q), <- norm_scale by lra. unfold dist, norm, dist2, norm2, seg_point, vscale, vminus. cbn [vx vy]. f_equal. ring. }
    rewrite E in Mn. assert (S0 : s = 0 \/ dist p q = 0) by (pose proof (dist_nonneg p q); destruct (Req_dec s 0); [auto|right; nra]). destruct S0 as [->|S0].
    + replace (seg_point q p 0) with q in Z by (destruct q; unfold seg_point; cbn; f_equal; ring). lra.
    + apply dist_0 in S0. subst q. specialize (Rp a b I). lra.
  - intros eps He. destruct Bc as (a & b & I & O). assert (NE := cv_ne vs CV a b I). assert (Dn := cv_on vs CV a b I). assert (DP := dist_pos _ _ NE).
    set (k := eps / dist a b). assert (K : 0 < k) by (unfold k; apply Rmult_lt_0_compat; [lra|now apply Rinv_0_lt_compat]). set (q := vplus c (vscale k (mkV (vy b - vy a) (- (vx b - vx a))))).
    exists q. split.
    + assert (T : dist p q <= dist p c + dist c q) by apply dist_tri. assert (E : dist c q = eps).
      { replace (dist c q) with (k * dist a b); [unfold k; field; lra|]. rewrite (dist_norm a b), <- norm_scale by lra. unfold q, dist, norm, dist2, norm2, vscale, vminus, vplus. cbn [vx vy]. f_equal. ring. } lra.
    + intros Rq. specialize (Rq a b I). destruct O as (s & S & ->). assert (E : turn a b q = - k * dist2 a b) by (unfold q, turn, seg_point, vplus, vscale, dist2; cbn [vx vy]; ring). nra.
Qed.
