(** Ideal-arithmetic facts about vectors, boxes and transforms. *)
From Coq Require Import Reals ZArith Bool Lra Lia Psatz.
From Flocq Require Import Core.
From Verif Require Import Num Spec.
From Verif.Model Require Import Vector BB Transform.
From Verif.Proofs Require Import RTac BBOrder.
Open Scope R_scope.

Lemma in_box_R (b : BB R) (p : RV) :
  in_box b p <-> bl b <= vx p <= br b /\ bb b <= vy p <= bt b.
Proof. unfold in_box; unR; rewrite !Rleb_true; tauto. Qed.
Lemma ordered_R (b : BB R) : ordered b <-> bl b <= br b /\ bb b <= bt b.
Proof. unfold ordered; unR; rewrite !Rleb_true; tauto. Qed.

(** ** BB.SegmentQuery *)
Lemma slab_spec d a lo hi tmin tmax : lo <= hi ->
  match bb_slab d a lo hi tmin tmax with
  | None => forall s, ~ (lo <= a + s * d <= hi)
  | Some (t0, t1) => forall s, (t0 <= s <= t1) <-> (tmin <= s <= tmax /\ lo <= a + s * d <= hi)
  end.
Proof.
  intros Hlh. unfold bb_slab. unR. destruct (Reqb d 0) eqn:E; rbool.
  - subst d. destruct (Rltb a lo) eqn:E1; cbn [orb]; rbool; [intros s; lra|].
    destruct (Rltb hi a) eqn:E2; rbool; [intros s; lra|]. intros s. split; lra.
  - intros s.
    assert (H1 : forall c, s * d = (c - a) <-> s = (c - a) / d).
    { intros c; split; intros H; [rewrite <- H; field; auto | rewrite H; field; auto]. }
    set (u := (lo - a) / d). set (w := (hi - a) / d).
    assert (Hu : u * d = lo - a) by (unfold u; field; auto).
    assert (Hw : w * d = hi - a) by (unfold w; field; auto).
    clearbody u w. clear H1.
    destruct (Rtotal_order d 0) as [Hd|[Hd|Hd]]; [|lra|].
    + assert (w <= u) by nra.
      rewrite (Rmin_right u w), (Rmax_left u w) by lra.
      split.
      * intros [A C]. assert (w <= s) by (pose proof (Rmax_r tmin w); lra).
        assert (tmin <= s) by (pose proof (Rmax_l tmin w); lra).
        assert (s <= u) by (pose proof (Rmin_r tmax u); lra).
        assert (s <= tmax) by (pose proof (Rmin_l tmax u); lra).
        repeat split; try lra; nra.
      * intros [[A1 A2] [C1 C2]]. assert (w <= s) by nra. assert (s <= u) by nra.
        split; [apply Rmax_lub; lra | apply Rmin_glb; lra].
    + assert (u <= w) by nra.
      rewrite (Rmin_left u w), (Rmax_right u w) by lra.
      split.
      * intros [A C]. assert (u <= s) by (pose proof (Rmax_r tmin u); lra).
        assert (tmin <= s) by (pose proof (Rmax_l tmin u); lra).
        assert (s <= w) by (pose proof (Rmin_r tmax w); lra).
        assert (s <= tmax) by (pose proof (Rmin_l tmax w); lra).
        repeat split; try lra; nra.
      * intros [[A1 A2] [C1 C2]]. assert (u <= s) by nra. assert (s <= w) by nra.
        split; [apply Rmax_lub; lra | apply Rmin_glb; lra].
Qed.

(** the set of hit fractions is an interval, and the code computes it *)
Lemma bb_segment_query_cases (x : BB R) (a b : RV) : ordered x ->
  let hit s := 0 <= s <= 1 /\ in_box x (seg_point a b s) in
  (exists t, bb_segment_query x a b = t /\ hit t /\ forall s, hit s -> t <= s) \/
  (bb_segment_query x a b = MaxFloat64 /\ forall s, ~ hit s).
Proof.
  intros Ho hit. apply ordered_R in Ho as [Hx Hy].
  pose proof MaxFloat_big as HM.
  unfold bb_segment_query.
  assert (Hhit : forall s, hit s <-> 0 <= s <= 1 /\ (bl x <= vx a + s * vx (vsub b a) <= br x)
     /\ (bb x <= vy a + s * vy (vsub b a) <= bt x)).
  { intros s. unfold hit. rewrite in_box_R. unfold seg_point, vsub; unR; cbn [vx vy]. tauto. }
  pose proof (slab_spec (vx (vsub b a)) (vx a) (bl x) (br x) (nneg ninf) ninf Hx) as S1.
  destruct (bb_slab _ _ _ _ (nneg ninf) ninf) as [[t0 t1]|].
  2:{ right. split; [reflexivity|]. intros s Hs. apply Hhit in Hs as (_ & Hs & _). now apply S1 in Hs. }
  pose proof (slab_spec (vy (vsub b a)) (vy a) (bb x) (bt x) t0 t1 Hy) as S2.
  destruct (bb_slab _ _ _ _ t0 t1) as [[u0 u1]|].
  2:{ right. split; [reflexivity|]. intros s Hs. apply Hhit in Hs as (_ & _ & Hs). now apply S2 in Hs. }
  unR.
  assert (Hall : forall s, hit s <-> 0 <= s <= 1 /\ u0 <= s <= u1).
  { intros s. rewrite Hhit, S2, S1. split; intros HH; decompose [and] HH; repeat split; lra. }
  destruct (Rleb u0 u1 && Rleb 0 u1 && Rleb u0 1)%bool eqn:E.
  - left. rbool. exists (Rmax u0 0). split; [reflexivity|].
    assert (hit (Rmax u0 0)).
    { apply Hall. unfold Rmax; destruct (Rle_dec u0 0); lra. }
    split; [assumption|]. intros s Hs. apply Hall in Hs. apply Rmax_lub; lra.
  - right. split; [reflexivity|]. intros s Hs. apply Hall in Hs.
    apply andb_false_iff in E as [E|E]; [apply andb_false_iff in E as [E|E]|]; rbool; lra.
Qed.

Lemma bb_segment_query_hit (x : BB R) a b : ordered x ->
  (exists s, 0 <= s <= 1 /\ in_box x (seg_point a b s)) ->
  0 <= bb_segment_query x a b <= 1 /\ in_box x (seg_point a b (bb_segment_query x a b)) /\
  forall s, 0 <= s <= 1 -> in_box x (seg_point a b s) -> bb_segment_query x a b <= s.
Proof.
  intros Ho [s Hs]. destruct (bb_segment_query_cases x a b Ho) as [(t & E & [H1 H2] & H3)|[_ H]].
  - rewrite E. split; [tauto|]. split; [tauto|]. intros; apply H3; auto.
  - exfalso; apply (H s); tauto.
Qed.
Lemma bb_segment_query_miss (x : BB R) a b : ordered x ->
  ~ (exists s, 0 <= s <= 1 /\ in_box x (seg_point a b s)) -> bb_segment_query x a b = MaxFloat64.
Proof.
  intros Ho Hn. destruct (bb_segment_query_cases x a b Ho) as [(t & E & H & _)|[H _]]; auto.
  exfalso; apply Hn; exists t; exact H.
Qed.
Lemma bb_intersects_segment_iff (x : BB R) a b : ordered x ->
  (bb_intersects_segment x a b = true <-> exists p, on_segment a b p /\ in_box x p).
Proof.
  intros Ho. unfold bb_intersects_segment; unR. pose proof MaxFloat_big as HM.
  destruct (bb_segment_query_cases x a b Ho) as [(t & E & [H1 H2] & H3)|[E H]]; rewrite E.
  - split; intros _.
    + exists (seg_point a b t). split; [exists t; auto|auto].
    + apply negb_true_iff. rbool. lra.
  - split.
    + intros HH. apply negb_true_iff in HH. rbool. lra.
    + intros (p & (s & Hs & ->) & Hp). exfalso; apply (H s); auto.
Qed.

(** ** ClampVect *)
Lemma clampR (f lo hi : R) : lo <= hi -> nclamp f lo hi = Rmax lo (Rmin f hi).
Proof.
  intros. unfold nclamp; unR. destruct (Rltb lo f) eqn:E; rbool;
  unfold Rmin, Rmax; repeat destruct (Rle_dec _ _); lra.
Qed.
Lemma clamp_vect_nearest (x : BB R) (v q : RV) : ordered x -> in_box x q ->
  dist2 v (bb_clamp_vect x v) <= dist2 v q.
Proof.
  intros Ho Hq. apply ordered_R in Ho as [Hx Hy]. apply in_box_R in Hq as [Q1 Q2].
  unfold dist2, bb_clamp_vect; cbn [vx vy]. rewrite !clampR by assumption.
  apply Rplus_le_compat; unfold Rmin, Rmax; repeat destruct (Rle_dec _ _);
  match goal with |- ?x * ?x <= ?y * ?y => apply Rsqr_le_abs_1; unfold Rabs; repeat destruct (Rcase_abs _); lra end.
Qed.

(** ** WrapVect *)
Lemma rmod_range x d : 0 < d -> - d < Rmod x d < d.
Proof.
  intros Hd. unfold Rmod.
  assert (Hx : x = d * (x / d)) by (field; lra).
  remember (x / d) as q eqn:Hq0. clear Hq0. subst x.
  assert (Hf : -1 < q - IZR (Ztrunc q) < 1).
  { destruct (Rle_or_lt 0 q) as [Hq|Hq].
    - rewrite Ztrunc_floor by assumption. pose proof (Zfloor_lb q). pose proof (Zfloor_ub q). lra.
    - rewrite Ztrunc_ceil by lra. pose proof (Zceil_ub q). pose proof (Zceil_lb q). lra. }
  replace (d * q - d * IZR (Ztrunc q)) with (d * (q - IZR (Ztrunc q))) by ring.
  set (e := q - IZR (Ztrunc q)) in *. clearbody e. nra.
Qed.
Lemma wrap1_spec (v lo hi : R) : lo < hi ->
  lo < wrap1 v lo hi <= hi /\ exists k : Z, wrap1 v lo hi = v + IZR k * (hi - lo).
Proof.
  intros H. unfold wrap1; unR. rewrite (Rabs_right (hi - lo)) by lra.
  pose proof (rmod_range (v - lo) (hi - lo) ltac:(lra)) as R.
  split.
  - destruct (Rltb 0 (Rmod (v - lo) (hi - lo))) eqn:E; rbool; lra.
  - destruct (Rltb 0 (Rmod (v - lo) (hi - lo))) eqn:E; rbool; unfold Rmod in *.
    + exists (- Ztrunc ((v - lo) / (hi - lo)))%Z. rewrite opp_IZR. ring.
    + exists (1 - Ztrunc ((v - lo) / (hi - lo)))%Z. rewrite minus_IZR. ring.
Qed.

(** ** Vectors *)
Lemma norm2_nonneg v : 0 <= norm2 v.
Proof. unfold norm2; nra. Qed.
Lemma norm_sq v : norm v * norm v = norm2 v.
Proof. apply sqrt_sqrt, norm2_nonneg. Qed.
Lemma norm_nonneg v : 0 <= norm v.
Proof. apply sqrt_pos. Qed.
Lemma vlen_norm v : vlen v = norm v.
Proof. reflexivity. Qed.
Lemma vdot_inner v w : vdot v w = inner v w.
Proof. reflexivity. Qed.
Lemma vlensq_norm2 (v : RV) : vlensq v = norm2 v.
Proof. reflexivity. Qed.
Lemma vdist_dist v w : vdist v w = dist v w.
Proof. reflexivity. Qed.

Lemma cauchy_schwarz2 v w : inner v w * inner v w <= norm2 v * norm2 w.
Proof. unfold inner, norm2. pose proof (Rle_0_sqr (vx v * vy w - vy v * vx w)) as H. unfold Rsqr in H. lra. Qed.
Lemma abs_le_of_sq x y : 0 <= y -> x * x <= y * y -> Rabs x <= y.
Proof. intros. apply Rabs_le. split; nra. Qed.
Lemma cauchy_schwarz v w : Rabs (inner v w) <= norm v * norm w.
Proof.
  apply abs_le_of_sq.
  - pose proof (norm_nonneg v); pose proof (norm_nonneg w); nra.
  - replace (norm v * norm w * (norm v * norm w)) with ((norm v * norm v) * (norm w * norm w)) by ring.
    rewrite !norm_sq. apply cauchy_schwarz2.
Qed.

Lemma rotate_unrotate (v r : RV) : unit r -> vunrotate (vrotate v r) r = v.
Proof.
  unfold unit, norm2. intros H. apply vec_eq; unfold vrotate, vunrotate; unR; cbn [vx vy].
  - transitivity (vx v * (vx r * vx r + vy r * vy r)); [ring | rewrite H; ring].
  - transitivity (vy v * (vx r * vx r + vy r * vy r)); [ring | rewrite H; ring].
Qed.
Lemma unrotate_rotate (v r : RV) : unit r -> vrotate (vunrotate v r) r = v.
Proof.
  unfold unit, norm2. intros H. apply vec_eq; unfold vrotate, vunrotate; unR; cbn [vx vy].
  - transitivity (vx v * (vx r * vx r + vy r * vy r)); [ring | rewrite H; ring].
  - transitivity (vy v * (vx r * vx r + vy r * vy r)); [ring | rewrite H; ring].
Qed.
Lemma rotate_inner (v w r : RV) : unit r -> inner (vrotate v r) (vrotate w r) = inner v w.
Proof.
  unfold unit, norm2, inner. intros H. unfold vrotate; unR; cbn [vx vy].
  transitivity ((vx v * vx w + vy v * vy w) * (vx r * vx r + vy r * vy r)); [ring | rewrite H; ring].
Qed.
Lemma rotate_compose (v r s : RV) : vrotate (vrotate v r) s = vrotate v (vrotate r s).
Proof. apply vec_eq; unfold vrotate; unR; cbn [vx vy]; ring. Qed.
Lemma forangle_unit a : unit (vforangle a).
Proof. unfold unit, norm2, vforangle; unR; cbn [vx vy]. pose proof (sin2_cos2 a) as H. unfold Rsqr in H. lra. Qed.
Lemma forangle_add a b : vrotate (vforangle a) (vforangle b) = vforangle (a + b).
Proof.
  apply vec_eq; unfold vrotate, vforangle; unR; cbn [vx vy]; [rewrite cos_plus; ring | rewrite sin_plus; ring].
Qed.

Lemma normalize_scale v : 0 < 1 / (norm v + 1 / 1000000000000000).
Proof. pose proof (norm_nonneg v). apply Rdiv_lt_0_compat; lra. Qed.
Lemma normalize_eq v : vnormalize v = vscale (1 / (norm v + 1 / 1000000000000000)) v.
Proof. unfold vnormalize, vmult, vscale. rewrite vlen_norm. unR. apply vec_eq; cbn [vx vy]; ring. Qed.
Lemma norm_scale k v : 0 <= k -> norm (vscale k v) = k * norm v.
Proof.
  intros. unfold norm. replace (norm2 (vscale k v)) with (k * k * norm2 v) by (unfold norm2, vscale; cbn; ring).
  rewrite sqrt_mult by (pose proof (norm2_nonneg v); nra). now rewrite sqrt_square.
Qed.
Lemma normalize_norm v : norm (vnormalize v) = norm v / (norm v + 1 / 1000000000000000).
Proof.
  rewrite normalize_eq. pose proof (normalize_scale v). rewrite norm_scale by lra.
  pose proof (norm_nonneg v). field. lra.
Qed.
Lemma normalize_norm_lt v : norm (vnormalize v) < 1.
Proof.
  rewrite normalize_norm. pose proof (norm_nonneg v).
  apply Rmult_lt_reg_r with (norm v + 1 / 1000000000000000); [lra|]. field_simplify; lra.
Qed.

Lemma vclamp_norm v len : 0 <= len -> norm (vclamp v len) <= len.
Proof.
  intros Hl. unfold vclamp; unR. destruct (Rltb (len * len) (vdot v v)) eqn:E; rbool.
  - assert (vmult (vnormalize v) len = vscale len (vnormalize v)) as ->.
    { apply vec_eq; unfold vmult, vscale; unR; cbn [vx vy]; ring. }
    rewrite norm_scale by assumption. pose proof (normalize_norm_lt v). pose proof (norm_nonneg (vnormalize v)). nra.
  - rewrite vdot_inner in E. fold (norm2 v) in E. change (inner v v) with (norm2 v) in E.
    pose proof (norm_nonneg v). pose proof (norm_sq v). nra.
Qed.
Lemma vclamp_short v len : norm v <= len -> vclamp v len = v.
Proof.
  intros. unfold vclamp; unR. destruct (Rltb (len * len) (vdot v v)) eqn:E; rbool; auto.
  change (vdot v v) with (norm2 v) in E. pose proof (norm_nonneg v). pose proof (norm_sq v). nra.
Qed.
Lemma vclamp_dir v len : 0 <= len -> exists k, 0 <= k <= 1 /\ vclamp v len = vscale k v.
Proof.
  intros Hl. unfold vclamp; unR. destruct (Rltb (len * len) (vdot v v)) eqn:E; rbool.
  - change (vdot v v) with (norm2 v) in E. pose proof (norm_nonneg v). pose proof (norm_sq v).
    exists (len * (1 / (norm v + 1 / 1000000000000000))). pose proof (normalize_scale v). split; [split|].
    + nra.
    + assert (len < norm v) by nra. apply Rmult_le_reg_r with (norm v + 1 / 1000000000000000); [lra|].
      field_simplify; lra.
    + rewrite normalize_eq. apply vec_eq; unfold vmult, vscale; unR; cbn [vx vy]; ring.
  - exists 1. split; [lra|]. apply vec_eq; unfold vscale; cbn; ring.
Qed.

(** scalar LerpConst moves at most d and never past the target *)
Lemma lerpconst_spec f1 f2 d : 0 <= d ->
  (f1 <= f2 -> f1 <= nlerpconst f1 f2 d <= f2) /\ (f2 <= f1 -> f2 <= nlerpconst f1 f2 d <= f1) /\
  Rabs (nlerpconst f1 f2 d - f1) <= d /\ (Rabs (f2 - f1) <= d -> nlerpconst f1 f2 d = f2).
Proof.
  intros. unfold nlerpconst; unR. rewrite clampR by lra.
  unfold Rmin, Rmax, Rabs; repeat (destruct (Rle_dec _ _) || destruct (Rcase_abs _)); repeat split; intros; try lra.
Qed.

(** ** ClosestPointOnSegment *)
Lemma clamp01R (f : R) : nclamp01 f = Rmax 0 (Rmin f 1).
Proof. reflexivity. Qed.
Lemma closest_point_on (p a b : RV) : on_segment b a (closest_point_on_segment p a b).
Proof.
  unfold closest_point_on_segment. set (t := nclamp01 _). exists t. split.
  - unfold t. rewrite clamp01R. unfold Rmin, Rmax; repeat destruct (Rle_dec _ _); lra.
  - apply vec_eq; unfold seg_point, vadd, vmult, vsub; unR; cbn [vx vy]; ring.
Qed.
Lemma closest_t_ineq (D k s : R) : 0 < D ->
  let t := Rmax 0 (Rmin (k / D) 1) in 0 <= s <= 1 ->
  t * t * D - 2 * t * k <= s * s * D - 2 * s * k.
Proof.
  intros HD t Hs. set (q := k / D) in *.
  assert (Hk : k = q * D) by (unfold q; field; lra). rewrite Hk. clearbody q. clear Hk.
  assert (H : t * t - 2 * t * q <= s * s - 2 * s * q).
  { assert (Ht : t = q \/ (t = 0 /\ q <= 0) \/ (t = 1 /\ 1 <= q)).
    { unfold t, Rmin, Rmax. repeat destruct (Rle_dec _ _); lra. }
    destruct Ht as [->|[[-> Hq]|[-> Hq]]].
    - pose proof (Rle_0_sqr (s - q)) as S. unfold Rsqr in S. lra.
    - nra.
    - assert (0 <= (1 - s) * (2 * q - 1 - s)) by (apply Rmult_le_pos; lra). lra. }
  nra.
Qed.
Lemma closest_point_nearest (p a b q : RV) : a <> b -> on_segment a b q ->
  dist2 p (closest_point_on_segment p a b) <= dist2 p q.
Proof.
  intros Hab (s & Hs & ->).
  set (D := norm2 (vsub a b)).
  assert (HD : 0 < D).
  { unfold D, norm2, vsub; unR; cbn [vx vy].
    destruct (Req_dec (vx a) (vx b)) as [E1|E1]; destruct (Req_dec (vy a) (vy b)) as [E2|E2].
    - exfalso; apply Hab, vec_eq; assumption.
    - assert (0 < (vy a - vy b) * (vy a - vy b)) by nra. nra.
    - assert (0 < (vx a - vx b) * (vx a - vx b)) by nra. nra.
    - assert (0 < (vx a - vx b) * (vx a - vx b)) by nra. nra. }
  set (k := inner (vsub a b) (vsub p b)).
  pose proof (closest_t_ineq D k (1 - s) HD) as H. cbn zeta in H.
  unfold closest_point_on_segment.
  change (vdot (vsub a b) (vsub p b)) with k. change (vlensq (vsub a b)) with D.
  rewrite clamp01R. unR. set (t := Rmax 0 (Rmin (k / D) 1)) in *.
  assert (E1 : dist2 p (vadd b (vmult (vsub a b) t)) = dist2 p b + (t * t * D - 2 * t * k)).
  { unfold dist2, D, k, inner, norm2, vadd, vmult, vsub; unR; cbn [vx vy]; ring. }
  assert (E2 : dist2 p (seg_point a b s) = dist2 p b + ((1 - s) * (1 - s) * D - 2 * (1 - s) * k)).
  { unfold dist2, D, k, inner, norm2, seg_point, vsub; unR; cbn [vx vy]; ring. }
  rewrite E1, E2. apply Rplus_le_compat_l. apply H. lra.
Qed.

(** LerpT / ClosestT: nearest point to the origin, parameter in [-1,1] *)
Lemma closest_t_range (a b : RV) : -1 <= closest_t a b <= 1.
Proof.
  unfold closest_t. unR. rewrite clampR by lra. unfold Rmin, Rmax; repeat destruct (Rle_dec _ _); lra.
Qed.
Lemma lerp_t_seg (a b : RV) t : vlerp_t a b t = seg_point a b ((1 + t) / 2).
Proof. apply vec_eq; unfold vlerp_t, seg_point, vadd, vmult; unR; cbn [vx vy]; field. Qed.
Lemma closest_dist_nearest (a b q : RV) : a <> b -> on_segment a b q -> closest_dist a b <= norm2 q.
Proof.
  intros Hab (s & Hs & ->).
  unfold closest_dist. rewrite vlensq_norm2, lerp_t_seg.
  set (D := norm2 (vsub b a)).
  assert (HD : 0 < D).
  { unfold D, norm2, vsub; unR; cbn [vx vy].
    destruct (Req_dec (vx a) (vx b)) as [E1|E1]; destruct (Req_dec (vy a) (vy b)) as [E2|E2].
    - exfalso; apply Hab, vec_eq; assumption.
    - assert (0 < (vy b - vy a) * (vy b - vy a)) by nra. nra.
    - assert (0 < (vx b - vx a) * (vx b - vx a)) by nra. nra.
    - assert (0 < (vx b - vx a) * (vx b - vx a)) by nra. nra. }
  set (k := inner (vsub b a) (vadd a b)).
  set (t := closest_t a b).
  assert (Et : t = - Rmax (-1) (Rmin (k / D) 1)).
  { unfold t, closest_t; cbv zeta. fold (norm2 (vsub b a)).
    change (vlensq (vsub b a)) with D. change (vdot (vsub b a) (vadd a b)) with k. unR. rewrite clampR by lra.
    reflexivity. }
  assert (EN : forall u, norm2 (seg_point a b ((1 + u) / 2)) =
               norm2 (seg_point a b (1/2)) + (u * u * D + 2 * u * k) / 4).
  { intros u. unfold k, D, inner, norm2, seg_point, vadd, vsub; unR; cbn [vx vy]. field. }
  replace s with ((1 + (2 * s - 1)) / 2) by field. rewrite !EN.
  apply Rplus_le_compat_l. set (u := 2 * s - 1). assert (Hu : -1 <= u <= 1) by (unfold u; lra). clearbody u.
  set (q := k / D) in *. assert (Hk : k = q * D) by (unfold q; field; lra). rewrite Hk. clearbody q k.
  assert (t * t + 2 * t * q <= u * u + 2 * u * q).
  { assert (Ht : t = - q \/ (t = -1 /\ 1 <= q) \/ (t = 1 /\ q <= -1)).
    { rewrite Et. unfold Rmin, Rmax. repeat destruct (Rle_dec _ _); lra. }
    clear Et. destruct Ht as [->|[[-> Hq]|[-> Hq]]].
    - pose proof (Rle_0_sqr (u + q)) as S. unfold Rsqr in S. lra.
    - assert (0 <= (1 + u) * (2 * q - 1 + u)) by (apply Rmult_le_pos; lra). lra.
    - assert (0 <= (1 - u) * (- 2 * q - 1 - u)) by (apply Rmult_le_pos; lra). lra. }
  nra.
Qed.

(** ** Transforms *)
Definition det (t : Transform R) : R := ta t * td t - tc t * tb t.
Lemma t_eq (s t : Transform R) : ta s = ta t -> tb s = tb t -> tc s = tc t -> td s = td t ->
  ttx s = ttx t -> tty s = tty t -> s = t.
Proof. destruct s, t; cbn; intros; subst; reflexivity. Qed.
Lemma mult_point (s t : Transform R) p : t_point (t_mult s t) p = t_point s (t_point t p).
Proof. apply vec_eq; unfold t_point, t_mult, t_transpose; unR; cbn [vx vy ta tb tc td ttx tty]; ring. Qed.
Lemma inverse_l (t : Transform R) p : det t <> 0 -> t_point (t_inverse t) (t_point t p) = p.
Proof.
  unfold det; intros. apply vec_eq; unfold t_point, t_inverse, t_transpose; unR; cbn [vx vy ta tb tc td ttx tty]; field; auto.
Qed.
Lemma inverse_r (t : Transform R) p : det t <> 0 -> t_point t (t_point (t_inverse t) p) = p.
Proof.
  unfold det; intros. apply vec_eq; unfold t_point, t_inverse, t_transpose; unR; cbn [vx vy ta tb tc td ttx tty]; field; auto.
Qed.
Lemma inverse_unique (t : Transform R) : det t <> 0 -> t_mult t (t_inverse t) = t_identity /\ t_mult (t_inverse t) t = t_identity.
Proof.
  unfold det; intros. split; apply t_eq; unfold t_mult, t_inverse, t_identity, t_transpose; unR; cbn [ta tb tc td ttx tty]; field; auto.
Qed.
Definition rigid (t : Transform R) : Prop := td t = ta t /\ tc t = - tb t /\ ta t * ta t + tb t * tb t = 1.
Lemma rigid_inverse_l (t : Transform R) p : rigid t -> t_point (t_rigid_inverse t) (t_point t p) = p.
Proof.
  intros (H1 & H2 & H3). apply vec_eq; unfold t_point, t_rigid_inverse, t_transpose; unR; cbn [vx vy ta tb tc td ttx tty]; rewrite H1, H2.
  - transitivity (vx p * (ta t * ta t + tb t * tb t)); [ring | rewrite H3; ring].
  - transitivity (vy p * (ta t * ta t + tb t * tb t)); [ring | rewrite H3; ring].
Qed.
Lemma rigid_inverse_r (t : Transform R) p : rigid t -> t_point t (t_point (t_rigid_inverse t) p) = p.
Proof.
  intros (H1 & H2 & H3). apply vec_eq; unfold t_point, t_rigid_inverse, t_transpose; unR; cbn [vx vy ta tb tc td ttx tty]; rewrite H1, H2.
  - transitivity (vx p * (ta t * ta t + tb t * tb t) + ttx t * (1 - (ta t * ta t + tb t * tb t))); [ring | rewrite H3; ring].
  - transitivity (vy p * (ta t * ta t + tb t * tb t) + tty t * (1 - (ta t * ta t + tb t * tb t))); [ring | rewrite H3; ring].
Qed.
Lemma t_rigid_rigid v a : rigid (t_rigid v a).
Proof.
  unfold rigid, t_rigid, t_transpose; unR; cbn [vx vy ta tb tc td ttx tty].
  pose proof (forangle_unit a) as H. unfold unit, norm2 in H. auto.
Qed.
Lemma t_rotate_rigid a : rigid (t_rotate a).
Proof.
  unfold rigid, t_rotate, t_transpose; unR; cbn [vx vy ta tb tc td ttx tty].
  pose proof (forangle_unit a) as H. unfold unit, norm2 in H. auto.
Qed.
Lemma rigid_dist (t : Transform R) p q : rigid t -> dist2 (t_point t p) (t_point t q) = dist2 p q.
Proof.
  intros (H1 & H2 & H3). unfold dist2, t_point; unR; cbn [vx vy]. rewrite H1, H2.
  transitivity (((vx p - vx q) * (vx p - vx q) + (vy p - vy q) * (vy p - vy q)) * (ta t * ta t + tb t * tb t)); [ring | rewrite H3; ring].
Qed.

Lemma abs_lin_bound a b x y : Rabs x <= 1 -> Rabs y <= 1 ->
  Rabs (a * x + b * y) <= Rmax (Rabs (a + b)) (Rabs (a - b)).
Proof.
  intros Hx Hy. apply Rabs_le_inv in Hx, Hy.
  assert (Rmax (Rabs (a + b)) (Rabs (a - b)) = Rabs a + Rabs b) as ->.
  { unfold Rmax, Rabs; repeat (destruct (Rle_dec _ _) || destruct (Rcase_abs _)); lra. }
  assert (Rabs (a * x) <= Rabs a).
  { rewrite Rabs_mult. assert (Rabs x <= 1) by (apply Rabs_le; lra). pose proof (Rabs_pos a). nra. }
  assert (Rabs (b * y) <= Rabs b).
  { rewrite Rabs_mult. assert (Rabs y <= 1) by (apply Rabs_le; lra). pose proof (Rabs_pos b). nra. }
  pose proof (Rabs_triang (a * x) (b * y)). lra.
Qed.
Lemma abs_lin_max a b : Rmax (Rabs (a + b)) (Rabs (a - b)) = Rabs a + Rabs b.
Proof. unfold Rmax, Rabs; repeat (destruct (Rle_dec _ _) || destruct (Rcase_abs _)); lra. Qed.

Lemma coord_in lo hi x : lo <= x <= hi -> exists u, -1 <= u <= 1 /\ x = (lo + hi) / 2 + u * ((hi - lo) / 2).
Proof.
  intros H. destruct (Req_dec lo hi) as [E|E].
  - exists 0. split; [lra|]. subst. lra.
  - exists ((x - (lo + hi) / 2) / ((hi - lo) / 2)). split.
    + split; apply Rmult_le_reg_r with ((hi - lo) / 2); try lra; field_simplify; lra.
    + field. lra.
Qed.
Lemma lin_abs a x : -1 <= x <= 1 -> Rabs (a * x) <= Rabs a.
Proof. intros. rewrite Rabs_mult. assert (Rabs x <= 1) by (apply Rabs_le; lra). pose proof (Rabs_pos a). nra. Qed.

Lemma t_bb_encloses (t : Transform R) (x : BB R) p : in_box x p -> in_box (t_bb t x) (t_point t p).
Proof.
  intros Hp. apply in_box_R in Hp as [Hx Hy].
  destruct (coord_in _ _ _ Hx) as (u & Hu & Eu). destruct (coord_in _ _ _ Hy) as (w & Hw & Ew).
  apply in_box_R. unfold t_bb, bb_extents, bb_center, vlerp, vadd, vmult, t_point; unR; cbn [vx vy bl bb br bt].
  rewrite !abs_lin_max. rewrite Eu, Ew.
  set (hw := (br x - bl x) * (1/2)). set (hh := (bt x - bb x) * (1/2)).
  pose proof (lin_abs (ta t * hw) u Hu) as A1. pose proof (lin_abs (tc t * hh) w Hw) as A2.
  pose proof (lin_abs (tb t * hw) u Hu) as A3. pose proof (lin_abs (td t * hh) w Hw) as A4.
  apply Rabs_le_inv in A1, A2, A3, A4.
  set (p1 := Rabs (ta t * hw)) in *. set (p2 := Rabs (tc t * hh)) in *.
  set (p3 := Rabs (tb t * hw)) in *. set (p4 := Rabs (td t * hh)) in *.
  clearbody p1 p2 p3 p4. unfold hw, hh in *. split; split; lra.
Qed.
(** every side of the computed box is attained *)
Lemma t_bb_tight (t : Transform R) (x : BB R) c : ordered x ->
  (forall p, in_box x p -> in_box c (t_point t p)) -> subbox (t_bb t x) c.
Proof.
  intros Ho H. apply ordered_R in Ho as [Hx Hy].
  assert (C : forall p, bl x <= vx p <= br x -> bb x <= vy p <= bt x ->
     bl c <= vx (t_point t p) <= br c /\ bb c <= vy (t_point t p) <= bt c).
  { intros p P1 P2. apply in_box_R, H, in_box_R. auto. }
  pose proof (C (mkV (bl x) (bb x))) as C1. pose proof (C (mkV (bl x) (bt x))) as C2.
  pose proof (C (mkV (br x) (bb x))) as C3. pose proof (C (mkV (br x) (bt x))) as C4.
  clear C H. cbn [vx vy] in *.
  specialize (C1 ltac:(lra) ltac:(lra)). specialize (C2 ltac:(lra) ltac:(lra)).
  specialize (C3 ltac:(lra) ltac:(lra)). specialize (C4 ltac:(lra) ltac:(lra)).
  unfold subbox, t_bb, bb_extents, bb_center, vlerp, vadd, vmult, t_point in *; unR; cbn [vx vy bl bb br bt] in *.
  rewrite !abs_lin_max.
  set (a1 := ta t * ((br x - bl x) * (1/2))). set (a2 := tc t * ((bt x - bb x) * (1/2))).
  set (a3 := tb t * ((br x - bl x) * (1/2))). set (a4 := td t * ((bt x - bb x) * (1/2))).
  repeat split; apply Rleb_true; unfold Rabs;
  repeat destruct (Rcase_abs _); unfold a1, a2, a3, a4 in *; lra.
Qed.
