(** The polygon's point query (C45). *)
From Coq Require Import Reals ZArith Bool List Lra Lia Psatz FinFun.
From Verif Require Import Num Spec SpecShapes.
From Verif.Model Require Import Vector BB Transform Shapes.
From Verif.Proofs Require Import RTac Geom ShapePf ShapePf2 PolyPf.
Import ListNotations.

Lemma on_seg_flip a b q : on_segment a b q -> on_segment b a q.
Proof. intros (s & S & ->). exists (1 - s). split; [lra|]. apply vec_eq; unfold seg_point; cbn; ring. Qed.
(** the fraction of a segment nearest to p, seen from the end points *)
Lemma seg_ends a b p c : on_segment a b c -> (forall q, on_segment a b q -> dist p c <= dist p q) -> inner (vminus p c) (vminus a c) <= 0 /\ inner (vminus p c) (vminus b c) <= 0.
Proof. intros C N. split; apply (nearest_inner (on_segment a b) p c); auto using convex_seg, on_seg_l, on_seg_r. Qed.

Section Convex.
Variable vs : list RV.
Hypothesis CV : convex_ccw vs.
(** the boundary point nearest to an inner point is the foot of a perpendicular *)
Lemma foot a b p c : region vs p -> In (a, b) (ring vs) -> on_segment a b c -> (forall q, boundary vs q -> dist p c <= dist p q) -> p <> c -> inner (vminus p c) (vminus b a) = 0.
Proof.
  intros Rp I C N NE. assert (NS : forall x y q, In (x, y) (ring vs) -> on_segment x y q -> dist p c <= dist p q) by (intros x y q J O; apply N; exists x, y; auto).
  destruct (seg_ends a b p c C (fun q => NS a b q I)) as [Ea Eb]. destruct (ring_succ vs a b I) as (d & Id). destruct (ring_pred vs a b I) as (z & Iz).
  assert (Td : 0 <= turn a b d) by (apply (vertex_region vs CV d); auto; now apply ring_in in Id). assert (Tz : 0 <= turn z a b) by (apply (vertex_region vs CV b); auto; now apply ring_in in I).
  assert (ON : forall x y, 0 < dist2 p c -> x <= 0 -> y <= 0 -> forall k u v, 0 < k -> 0 <= u -> 0 <= v -> k * dist2 p c = u * x + v * y -> False).
  { intros x y D X Y k u v K U W E. assert (0 < k * dist2 p c) by now apply Rmult_lt_0_compat. assert (0 <= u * - x) by (apply Rmult_le_pos; lra). assert (0 <= v * - y) by (apply Rmult_le_pos; lra). lra. }
  assert (Dp : 0 < dist2 p c) by (rewrite <- dist_sq; pose proof (dist_pos _ _ NE); now apply Rmult_lt_0_compat).
  destruct C as (s & S & Ec). assert (Fa : inner (vminus p c) (vminus a c) = - s * inner (vminus p c) (vminus b a)) by (rewrite Ec; unfold inner, vminus, seg_point; cbn; ring).
  assert (Fb : inner (vminus p c) (vminus b c) = (1 - s) * inner (vminus p c) (vminus b a)) by (rewrite Ec; unfold inner, vminus, seg_point; cbn; ring).
  rewrite Fa in Ea. rewrite Fb in Eb. destruct (Req_dec s 0) as [->|S0]; [|destruct (Req_dec s 1) as [->|S1]].
  - assert (CE : c = a) by (rewrite Ec; destruct a; apply vec_eq; unfold seg_point; cbn; ring). clear Ec. subst c.
    destruct (seg_ends z a p a (on_seg_r z a) (fun q => NS z a q Iz)) as [Xz _]. destruct (seg_ends a b p a (on_seg_l a b) (fun q => NS a b q I)) as [_ Xb].
    destruct Tz as [Tz|Tz]; [exfalso; apply (ON _ _ Dp Xz Xb (turn z a b) (turn a b p) (turn z a p)); auto; unfold turn, inner, vminus, dist2; cbn; ring|].
    destruct (cv_flat vs CV z a b Iz I (eq_sym Tz)) as (m & M & Em). assert (F : inner (vminus p a) (vminus b a) = - m * inner (vminus p a) (vminus z a)) by (rewrite Em; unfold inner, vminus, vscale; cbn [vx vy]; ring). rewrite F in *. nra.
  - assert (CE : c = b) by (rewrite Ec; destruct b; apply vec_eq; unfold seg_point; cbn; ring). clear Ec. subst c.
    destruct (seg_ends a b p b (on_seg_r a b) (fun q => NS a b q I)) as [Xa _]. destruct (seg_ends b d p b (on_seg_l b d) (fun q => NS b d q Id)) as [_ Xd].
    destruct Td as [Td|Td]; [exfalso; apply (ON _ _ Dp Xa Xd (turn a b d) (turn b d p) (turn a b p)); auto; unfold turn, inner, vminus, dist2; cbn; ring|].
    destruct (cv_flat vs CV a b d I Id (eq_sym Td)) as (m & M & Em). rewrite Em in Xd. assert (F1 : inner (vminus p b) (vscale m (vminus b a)) = m * inner (vminus p b) (vminus b a)) by (unfold inner, vscale; cbn [vx vy]; ring). rewrite F1 in Xd.
    assert (F2 : inner (vminus p b) (vminus a b) = - inner (vminus p b) (vminus b a)) by (unfold inner, vminus; cbn [vx vy]; ring). rewrite F2 in Xa. nra.
  - apply Rle_antisym; [apply Rmult_le_reg_l with (1 - s)|apply Rmult_le_reg_l with s]; lra.
Qed.
(** the region lies on p's side of the perpendicular at the foot *)
Lemma foot_side a b p c q : region vs p -> In (a, b) (ring vs) -> on_segment a b c -> (forall q, boundary vs q -> dist p c <= dist p q) -> p <> c -> region vs q -> 0 <= inner (vminus p c) (vminus q c).
Proof.
  intros Rp I C N NE Rq. assert (F := foot a b p c Rp I C N NE). assert (NB := cv_ne vs CV a b I). assert (Dn : 0 < dist2 a b) by (rewrite <- dist_sq; pose proof (dist_pos _ _ NB); now apply Rmult_lt_0_compat).
  specialize (Rp a b I). specialize (Rq a b I). destruct C as (s & S & Ec).
  assert (Tp : turn a b p = turn a b c + ((vx b - vx a) * (vy p - vy c) - (vy b - vy a) * (vx p - vx c))) by (unfold turn; ring). assert (Tq : turn a b q = turn a b c + ((vx b - vx a) * (vy q - vy c) - (vy b - vy a) * (vx q - vx c))) by (unfold turn; ring).
  assert (Tc : turn a b c = 0) by (rewrite Ec; unfold turn, seg_point; cbn; ring). rewrite Tc in *.
  assert (E : dist2 a b * inner (vminus p c) (vminus q c) = turn a b p * turn a b q + inner (vminus p c) (vminus b a) * inner (vminus q c) (vminus b a)) by (rewrite Tp, Tq; unfold dist2, inner, vminus; cbn; ring).
  rewrite F in E. apply Rmult_le_reg_l with (dist2 a b); auto. rewrite E. assert (0 <= turn a b p * turn a b q) by now apply Rmult_le_pos. lra.
Qed.
(** outside, the distance to the region is the distance to the boundary *)
Lemma outside_boundary p q : ~ region vs p -> region vs q -> exists c, boundary vs c /\ dist p c <= dist p q.
Proof.
  intros Np Rq. assert (X : exists a b, In (a, b) (ring vs) /\ turn a b p < 0) by (destruct (classic_ex (ring vs) p) as [X|X]; [auto|contradiction]).
  destruct (enter (ring vs) p q Rq X) as (s & S & Rx & a & b & I & Z & _). exists (seg_point p q s). split; [destruct (tight_edge vs CV a b _ I Rx Z) as (u & v & _ & Iu & Ou & _); exists u, v; auto|].
  apply dist_le_sq. assert (E : dist2 p (seg_point p q s) = s * s * dist2 p q) by (unfold dist2, seg_point; cbn; ring). rewrite E. pose proof (dist2_nonneg p q). assert (s * s <= 1) by nra. nra.
Qed.
End Convex.

(** ** the loop of the query *)
Definition side (p : RV) (q : Plane R) : bool := Rltb 0 (vdot (pl_n q) (vsub p (pl_v0 q))).
Lemma pq_fold p : forall l ps x md cp cn out, Forall2 (fun (e : RV * RV) q => pl_v0 q = snd e) (combine (x :: l) l) ps ->
  exists v md' cp' cn' out', fold_left (pq_step p) ps (x, md, cp, cn, out) = (v, md', cp', cn', out') /\ out' = (out || existsb (side p) ps)%bool /\ md' <= md /\
   (forall a b, In (a, b) (combine (x :: l) l) -> md' <= dist p (closest_point_on_segment p a b)) /\
   (md' = md /\ cp' = cp /\ cn' = cn \/ exists a b q, In (a, b) (combine (x :: l) l) /\ In q ps /\ pl_v0 q = b /\ cp' = closest_point_on_segment p a b /\ md' = dist p cp' /\ cn' = pl_n q).
Proof.
  induction l as [|y l IH]; intros ps x md cp cn out F; cbn [combine] in F; inversion F as [|e q E ps' V F' EE EQ]; subst; cbn [fold_left combine existsb].
  - exists x, md, cp, cn, out. rewrite orb_false_r. split; auto. split; auto. split; [lra|]. split; [intros a b []|auto].
  - cbn [snd] in V. set (st := pq_step p (x, md, cp, cn, out) q). assert (ST : st = let c := closest_point_on_segment p x y in let o := (out || side p q)%bool in if Rltb (dist p c) md then (y, dist p c, c, pl_n q, o) else (y, md, cp, cn, o)).
    { unfold st, pq_step, side. rewrite V. unR. change (vdist p (closest_point_on_segment p x y)) with (vlen (vsub p (closest_point_on_segment p x y))). rewrite !dist_vlen. cbv zeta. destruct out; cbn [orb]; destruct (Rltb (dist p (closest_point_on_segment p x y)) md); reflexivity. }
    cbv zeta in ST. destruct (Rltb (dist p (closest_point_on_segment p x y)) md) eqn:B; rbool; rewrite ST.
    + destruct (IH ps' y (dist p (closest_point_on_segment p x y)) (closest_point_on_segment p x y) (pl_n q) (out || side p q)%bool F') as (v & md' & cp' & cn' & out' & E1 & E2 & E3 & E4 & E5). exists v, md', cp', cn', out'. split; auto.
      split; [rewrite E2, orb_assoc; reflexivity|]. split; [lra|]. split; [intros a b [[= <- <-]|J]; auto|].
      right. destruct E5 as [(-> & -> & ->)|(a & b & q' & J & J' & K)]; [exists x, y, q|exists a, b, q']; cbn [In]; auto 10.
    + destruct (IH ps' y md cp cn (out || side p q)%bool F') as (v & md' & cp' & cn' & out' & E1 & E2 & E3 & E4 & E5). exists v, md', cp', cn', out'. split; auto.
      split; [rewrite E2, orb_assoc; reflexivity|]. split; [lra|]. split; [intros a b [[= <- <-]|J]; auto; lra|].
      destruct E5 as [E5|(a & b & q' & J & J' & K)]; [left; auto|right; exists a, b, q'; cbn [In]; auto 10].
Qed.

(** ** the transformed planes *)
Lemma ring_map (f : RV -> RV) vs : ring (map f vs) = map (fun e => (f (fst e), f (snd e))) (ring vs).
Proof.
  destruct vs as [|v vs]; [reflexivity|]. unfold ring. cbn [map]. change (f v :: map f vs) with (map f (v :: vs)). rewrite last_map.
  assert (G : forall l m, combine (map f l) (map f m) = map (fun e => (f (fst e), f (snd e))) (combine l m)) by (induction l as [|a l IH]; intros [|b m]; cbn; [reflexivity..|now rewrite IH]).
  change (f (last (v :: vs) v) :: map f (v :: vs)) with (map f (last (v :: vs) v :: v :: vs)). apply G.
Qed.
Lemma rigid_turn t a b c : rigid t -> turn (t_point t a) (t_point t b) (t_point t c) = turn a b c.
Proof.
  intros (H1 & H2 & H3). unfold turn, t_point. unR. cbn [vx vy]. rewrite H1, H2. transitivity ((ta t * ta t + tb t * tb t) * ((vx b - vx a) * (vy c - vy a) - (vy b - vy a) * (vx c - vx a))); [ring|rewrite H3; ring].
Qed.
Lemma rigid_inj t a b : rigid t -> t_point t a = t_point t b -> a = b.
Proof. intros Rt E. apply dist_0. unfold dist. rewrite <- (rigid_dist t a b Rt). fold (dist (t_point t a) (t_point t b)). now apply dist_0. Qed.
Lemma convex_rigid t vs : rigid t -> convex_ccw vs -> convex_ccw (map (t_point t) vs).
Proof.
  intros Rt (L & ND & T & P). split; [now rewrite map_length|]. split; [|split].
  - apply Injective_map_NoDup; auto. intros x y E. eapply rigid_inj; eauto.
  - intros a b v I J. rewrite ring_map in I. apply in_map_iff in I as ([a' b'] & [= <- <-] & I). apply in_map_iff in J as (v' & <- & J). cbn [fst snd]. rewrite rigid_turn by auto. now apply T.
  - destruct P as (a & b & v & I & J & P). exists (t_point t a), (t_point t b), (t_point t v). split; [rewrite ring_map; apply in_map_iff; exists (a, b); auto|]. split; [now apply in_map|]. now rewrite rigid_turn.
Qed.
(** plane of an edge: it ends there and its normal is a positive multiple of the right-hand perpendicular *)
Definition plane_of (e : RV * RV) (q : Plane R) : Prop := pl_v0 q = snd e /\ exists k, 0 < k /\ pl_n q = vscale k (vrperp (vsub (snd e) (fst e))) /\ k * dist (fst e) (snd e) < 1.
Lemma planes_ok t vs r : vs <> [] -> rigid t -> Forall2 plane_of (ring (map (t_point t) vs)) (fst (poly_cache (poly_planes vs) r t)).
Proof.
  intros N Rt. unfold poly_cache, poly_planes, poly_transform. cbn [fst]. rewrite map_map, <- ring_loop by auto. rewrite ring_map. induction (ring vs) as [|[a b] L IH]; [constructor|]. cbn [map]. constructor; auto. clear IH.
  unfold plane_of. cbn [fst snd pl_v0 pl_n]. split; auto. set (w := vrperp (vsub b a)). rewrite normalize_eq. exists (1 / (norm w + 1 / 1000000000000000)). pose proof (normalize_scale w) as K. split; auto.
  destruct Rt as (H1 & H2 & H3). split.
  - set (k := 1 / _) in *. clearbody k. apply vec_eq; unfold w, t_vect, t_point, vscale, vrperp, vsub; unR; cbn [vx vy]; rewrite H1, H2; ring.
  - assert (E : dist (t_point t a) (t_point t b) = norm w). { unfold dist. rewrite rigid_dist by (repeat split; auto). unfold norm. f_equal. unfold w, norm2, dist2, vrperp, vsub. unR. cbn [vx vy]. ring. } rewrite E. pose proof (norm_nonneg w).
    apply Rmult_lt_reg_r with (norm w + 1 / 1000000000000000); [lra|]. replace (1 / (norm w + 1 / 1000000000000000) * norm w * (norm w + 1 / 1000000000000000)) with (norm w) by (field; lra). lra.
Qed.
Lemma side_turn p e q : plane_of e q -> side p q = Rltb (turn (fst e) (snd e) p) 0.
Proof.
  intros (V & k & K & N & _). unfold side. rewrite V, N. set (t := turn _ _ _). assert (E : vdot (vscale k (vrperp (vsub (snd e) (fst e)))) (vsub p (snd e)) = k * - t) by (unfold t, turn, vdot, vscale, vrperp, vsub; unR; cbn [vx vy]; ring). rewrite E.
  destruct (Rltb t 0) eqn:B; rbool; nra.
Qed.
Lemma out_region p : forall L ps, Forall2 plane_of L ps -> existsb (side p) ps = false <-> forall a b, In (a, b) L -> 0 <= turn a b p.
Proof.
  induction 1 as [|[a b] q L ps P F IH]; cbn [existsb]; [split; auto; intros _ a b []|]. rewrite (side_turn p (a, b) q P). cbn [fst snd]. rewrite orb_false_iff, IH. split.
  - intros [B A] x y [[= <- <-]|J]; [rbool; auto|auto].
  - intros A. split; [rbool; apply A; left; auto|intros; apply A; right; auto].
Qed.

Lemma poly_pq vs r t p : convex_ccw vs -> rigid t -> 0 <= r ->
  let ws := map (t_point t) vs in (exists q, boundary ws q /\ dist p q < MaxFloat64) -> let i := poly_point_query (fst (poly_cache (poly_planes vs) r t)) r p in
  exists d, distance_to (boundary ws) p d /\ (region ws p -> pi_dist i = - d - r) /\ (~ region ws p -> distance_to (region ws) p d /\ pi_dist i = d - r) /\
    (0 < d -> distance_to (region ws) (pi_point i) r /\ dist p (pi_point i) = Rabs (pi_dist i) /\ (1 / 100000 < d -> norm (pi_grad i) = 1 /\ p = vplus (pi_point i) (vscale (pi_dist i) (pi_grad i)))).
Proof.
  intros CV0 Rt R0 ws (q0 & B0 & M0). assert (CV := convex_rigid t vs Rt CV0). fold ws in CV. assert (NE : vs <> []) by (destruct CV0 as (L & _); destruct vs; [cbn in L; lia|discriminate]).
  assert (PL := planes_ok t vs r NE Rt). fold ws in PL. set (ps := fst (poly_cache (poly_planes vs) r t)) in *. clearbody ps. cbv zeta. unfold poly_point_query.
  assert (WN : exists w ws', ws = w :: ws') by (unfold ws; destruct vs as [|v vs']; [congruence|exists (t_point t v), (map (t_point t) vs'); reflexivity]). destruct WN as (w & ws' & EW).
  assert (LP : pl_v0 (last ps (mkPl vzero vzero)) = last ws w).
  { assert (MV : map pl_v0 ps = ws). { rewrite <- (ring_snd ws). clear -PL. induction PL as [|e q L ps P F IH]; [reflexivity|]. cbn [map]. f_equal; auto. apply P. }
    rewrite <- MV. rewrite <- (last_dflt (map pl_v0 ps) (pl_v0 (mkPl vzero vzero))); [now rewrite last_map|]. rewrite MV, EW. discriminate. }
  rewrite LP. assert (RG : ring ws = combine (last ws w :: ws) ws) by (rewrite EW; reflexivity).
  destruct (pq_fold p ws ps (last ws w) ninf vzero vzero false) as (v & md & cp & cn & out & EF & EO & EM & EN & EC).
  { rewrite <- RG. clear -PL. induction PL; constructor; auto. apply H. }
  rewrite EF. cbn [pi_point pi_dist pi_grad orb] in *. rewrite <- RG in EN, EC. unR.
  assert (MN : forall q, boundary ws q -> md <= dist p q). { intros q (a & b & I & O). apply Rle_trans with (dist p (closest_point_on_segment p a b)); [now apply EN|]. apply dist_le_sq, closest_point_nearest; auto. apply (cv_ne ws CV a b I). }
  destruct EC as [(E1 & _)|(a & b & q & I & Iq & _ & Ec & Ed & En)]. { exfalso. specialize (MN q0 B0). lra. }
  assert (Bc : boundary ws cp) by (exists a, b; split; auto; rewrite Ec; apply on_seg_flip, closest_point_on). clear EN En EM EF. exists md. assert (DB : distance_to (boundary ws) p md) by (split; [exists cp; auto|auto]). split; auto.
  assert (OR : out = false <-> region ws p) by (rewrite EO; apply (out_region p (ring ws) ps PL)). clear EO.
  assert (NB : forall q, boundary ws q -> dist p cp <= dist p q) by (rewrite <- Ed; auto).
  assert (OUT : ~ region ws p -> distance_to (region ws) p md). { intros Nr. split; [exists cp; split; [now apply boundary_region|auto]|]. intros x Rx. destruct (outside_boundary ws CV p x Nr Rx) as (c & C1 & C2). specialize (MN c C1). lra. }
  split; [intros Rp; apply OR in Rp; rewrite Rp; reflexivity|]. split; [intros Np; destruct out; [auto|exfalso; apply Np, OR; reflexivity]|].
  intros D0. assert (Npc : p <> cp) by (intros ->; rewrite (proj2 (dist_0 _ _) eq_refl) in Ed; lra). assert (O : on_segment a b cp) by (rewrite Ec; apply on_seg_flip, closest_point_on). assert (FS : forall x, region ws p -> region ws x -> 0 <= inner (vminus p cp) (vminus x cp)) by (intros x Rp X; apply (foot_side ws CV a b p cp x); auto). destruct (unit_ray p cp r Npc) as (G1 & G2 & G3 & G4). cbv zeta in *. rewrite <- Ed in *.
  set (g := vmult (vsub p cp) (1 / md)) in *. assert (Rc : region ws cp) by now apply boundary_region.
  assert (IG : forall x, inner (vminus p cp) x = md * inner g x) by (intros x; replace (vminus p cp) with (vscale md g) by (rewrite <- G3; reflexivity); unfold inner, vscale; cbn; ring).
  assert (Ex : vx p - vx cp = md * vx g) by (change (vx p - vx cp) with (vx (vsub p cp)); rewrite G3; reflexivity). assert (Ey : vy p - vy cp = md * vy g) by (change (vy p - vy cp) with (vy (vsub p cp)); rewrite G3; reflexivity).
  unfold magic_epsilon. unR. destruct out.
  - assert (Np : ~ region ws p) by (intros X; apply OR in X; discriminate). fold g. split.
    + rewrite G2. replace r with (r * norm g) at 2 by (rewrite G1; ring). apply supported; auto. intros x X. assert (J := nearest_inner (region ws) p cp (region_convex ws) Rc). rewrite <- Ed in J. specialize (J (proj2 (OUT Np)) x X). rewrite IG in J. apply Rmult_le_reg_l with md; lra.
    + split; auto. intros L. destruct (Rltb (1 / 100000) md) eqn:Q; rbool; [|lra]. split; auto. rewrite G2. clearbody g. apply vec_eq; unfold vplus, vscale; cbn [vx vy]; lra.
  - assert (Rp : region ws p) by now apply OR. assert (Eg : vmult (vsub p cp) (1 / - md) = vscale (-1) g) by (unfold g; apply vec_eq; unfold vmult, vsub, vscale; unR; cbn [vx vy]; field; lra). rewrite Eg.
    set (h := vscale (-1) g). assert (Nh : norm h = 1). { rewrite <- G1. unfold norm, h, norm2, vscale. cbn [vx vy]. f_equal. ring. }
    assert (Eh : vadd cp (vmult h r) = vplus cp (vscale r h)) by (apply vec_eq; unfold vadd, vmult, vplus, vscale; unR; cbn [vx vy]; ring). rewrite Eh. split.
    + replace r with (r * norm h) at 2 by (rewrite Nh; ring). apply supported; auto. intros x X. assert (J := FS x Rp X). rewrite IG in J.
      assert (E : inner h (vminus x cp) = - inner g (vminus x cp)) by (unfold h, inner, vscale; cbn; ring). rewrite E. assert (0 <= inner g (vminus x cp)) by (apply Rmult_le_reg_l with md; lra). lra.
    + assert (EP : p = vplus (vplus cp (vscale r h)) (vscale (- md - r) h)) by (unfold h; clearbody g; apply vec_eq; unfold vplus, vscale; cbn [vx vy]; lra). split.
      * assert (E : dist p (vplus cp (vscale r h)) = norm (vscale (- md - r) h)) by (rewrite dist_norm; f_equal; rewrite EP at 1; apply vec_eq; unfold vminus, vplus, vscale; cbn; ring). rewrite E.
        assert (E2 : norm (vscale (- md - r) h) = norm (vscale (md + r) h)) by (unfold norm, norm2, vscale; cbn [vx vy]; f_equal; ring). rewrite E2, norm_scale, Nh by lra. rewrite Rabs_left by lra. lra.
      * intros L. destruct (Rltb (1 / 100000) md) eqn:Q; rbool; [|lra]. auto.
Qed.
