(** C136-C138: the transforms by their meaning; interpolation between vectors. *)
From Coq Require Import Reals ZArith Bool Lra Lia Nsatz.
From Flocq Require Import IEEE754.Binary.
From Verif Require Import Num Spec.
From Verif.Model Require Import Vector BB Transform Slerp.
From Verif.Proofs Require Import RTac Geom.
Local Open Scope R_scope.

(** ** C136 *)
Theorem C136_translate : forall v p : RV, t_point (t_translate v) p = mkV (vx p + vx v) (vy p + vy v).
Proof. intros [a b] [c d]. unfold t_point, t_translate, t_transpose. cbn [ta tb tc td ttx tty vx vy]. unR. f_equal; lra. Qed.
Theorem C136_scale : forall (sx sy : R) (p : RV), t_point (t_scale sx sy) p = mkV (sx * vx p) (sy * vy p).
Proof. intros a b [c d]. unfold t_point, t_scale, t_transpose. cbn [ta tb tc td ttx tty vx vy]. unR. f_equal; lra. Qed.
(** a point at distance [r] and angle [f] from the origin comes to the angle [f + a] *)
Theorem C136_rotate : forall a r f : R, t_point (t_rotate a) (mkV (r * cos f) (r * sin f)) = mkV (r * cos (f + a)) (r * sin (f + a)).
Proof. intros a r f. unfold t_point, t_rotate, t_transpose, vforangle. cbn [ta tb tc td ttx tty vx vy]. unR. rewrite cos_plus, sin_plus. f_equal; lra. Qed.
Theorem C136_rigid : forall (v : RV) (a r f : R), t_point (t_rigid v a) (mkV (r * cos f) (r * sin f)) = mkV (r * cos (f + a) + vx v) (r * sin (f + a) + vy v).
Proof. intros [v1 v2] a r f. unfold t_point, t_rigid, t_transpose, vforangle. cbn [ta tb tc td ttx tty vx vy]. unR. rewrite cos_plus, sin_plus. f_equal; lra. Qed.
(** the box goes to the square from -1 to 1: a point is in the box exactly if its image is in the square, and corners go to corners *)
Theorem C136_ortho : forall x : BB R, bl x < br x -> bb x < bt x ->
  t_point (t_ortho x) (mkV (bl x) (bb x)) = mkV (-1) (-1) /\ t_point (t_ortho x) (mkV (br x) (bt x)) = mkV 1 1 /\
  forall p, in_box x p <-> in_box (mkBB (-1) (-1) 1 1) (t_point (t_ortho x) p).
Proof.
  intros [l b r t] X Y. cbn [bl bb br bt] in X, Y. unfold t_point, t_ortho, t_transpose, in_box. cbn [ta tb tc td ttx tty vx vy bl bb br bt]. unR.
  assert (D : forall p l r q, l < r -> 2 / (r - l) * p + 0 * q + - (r + l) / (r - l) = -1 + 2 * ((p - l) / (r - l))) by (intros; field; lra).
  assert (E : forall p l r q, l < r -> 0 * q + 2 / (r - l) * p + - (r + l) / (r - l) = -1 + 2 * ((p - l) / (r - l))) by (intros; field; lra).
  split; [|split].
  - rewrite D, E by lra. f_equal; field; lra.
  - rewrite D, E by lra. f_equal; field; lra.
  - intros [p q]. cbn [vx vy]. rewrite D, E by lra.
    assert (G : forall p l r, l < r -> (l <= p <= r <-> 0 <= (p - l) / (r - l) <= 1)).
    { intros p0 l0 r0 H. assert (K : p0 - l0 = (p0 - l0) / (r0 - l0) * (r0 - l0)) by (field; lra). set (k := (p0 - l0) / (r0 - l0)) in *. split; intros; split; nra. }
    pose proof (G p l r X) as G1. pose proof (G q b t Y) as G2. rewrite !Rleb_true. split; intros; intuition lra.
Qed.
(** a bone: the origin goes to [v0], the unit of the first axis to [v1], and all distances grow by the length of the bone, without mirroring *)
Theorem C136_bone_scale : forall v0 v1 p q : RV, t_point (t_bonescale v0 v1) (mkV 0 0) = v0 /\ t_point (t_bonescale v0 v1) (mkV 1 0) = v1 /\
  dist (t_point (t_bonescale v0 v1) p) (t_point (t_bonescale v0 v1) q) = dist v0 v1 * dist p q /\ 0 <= ta (t_bonescale v0 v1) * td (t_bonescale v0 v1) - tc (t_bonescale v0 v1) * tb (t_bonescale v0 v1).
Proof.
  intros [a b] [c d] [p1 p2] [q1 q2]. unfold t_point, t_bonescale, t_transpose, vsub. cbn [ta tb tc td ttx tty vx vy]. unR.
  split; [f_equal; lra|]. split; [f_equal; lra|]. split.
  - unfold dist. rewrite <- sqrt_mult_alt by (unfold dist2; apply Rplus_le_le_0_compat; apply Rle_0_sqr). f_equal. unfold dist2. cbn [vx vy]. ring.
  - replace (_ - _) with ((c - a) * (c - a) + (d - b) * (d - b)) by ring. apply Rplus_le_le_0_compat; apply Rle_0_sqr.
Qed.
(** scaling along a unit axis through a pivot: the part of the way from the pivot along the axis is multiplied, the part across stays *)
Theorem C136_axial_scale : forall (axis pivot p : RV) (s : R), inner axis axis = 1 ->
  let q := t_point (t_axialscale axis pivot s) p in
  inner (vminus q pivot) axis = s * inner (vminus p pivot) axis /\ inner (vminus q pivot) (mkV (- vy axis) (vx axis)) = inner (vminus p pivot) (mkV (- vy axis) (vx axis)).
Proof.
  intros [a b] [c d] [p q] s U. unfold inner in U. cbn [vx vy] in U. unfold t_point, t_axialscale, t_transpose, vdot. cbn [ta tb tc td ttx tty vx vy]. unR. unfold inner, vminus. cbn [vx vy].
  clear - U. split; nsatz.
Qed.
(** Wrap: the inner transform done in the coordinates of the outer one *)
Theorem C136_wrap : forall (outer inner_ : Transform R) (p : RV), ta outer * td outer - tc outer * tb outer <> 0 ->
  t_point outer (t_point (t_wrap outer inner_) p) = t_point inner_ (t_point outer p).
Proof.
  intros [a b c d x y] [a' b' c' d' x' y'] [p q] N. cbn [ta tb tc td] in N. unfold t_point, t_wrap, t_mult, t_inverse, t_transpose. cbn [ta tb tc td ttx tty vx vy]. unR. f_equal; field; lra.
Qed.
Example C136_nonvacuous : inner (mkV (3 / 5) (4 / 5)) (mkV (3 / 5) (4 / 5)) = 1 /\ (let x := mkBB (-1) 2 3 5 in bl x < br x /\ bb x < bt x) /\ (let t := mkT 2 1 0 3 5 (-1) in ta t * td t - tc t * tb t <> 0).
Proof. unfold inner. cbn. repeat split; lra. Qed.
Print Assumptions C136_ortho. Print Assumptions C136_bone_scale. Print Assumptions C136_axial_scale. Print Assumptions C136_wrap.

(** ** C137 *)
Lemma dot_inner (a b : RV) : vdot a b = inner a b. Proof. reflexivity. Qed.
Lemma normalize_lt (v : RV) : 0 <= norm (vnormalize v) < 1.
Proof.
  rewrite normalize_norm. pose proof (norm_nonneg v). set (e := 1 / 1000000000000000) in *. assert (0 < e) by (unfold e; lra). clearbody e.
  assert (norm v = norm v / (norm v + e) * (norm v + e)) by (field; lra). set (k := norm v / (norm v + e)) in *. split; nra.
Qed.
Lemma omega_range (v o : RV) : 0 < vomega acos v o < PI.
Proof.
  unfold vomega. apply acos_bound_lt. rewrite dot_inner. pose proof (cauchy_schwarz (vnormalize v) (vnormalize o)) as C. destruct (normalize_lt v) as [A B], (normalize_lt o) as [A' B'].
  assert (norm (vnormalize v) * norm (vnormalize o) < 1) by nra. set (x := inner _ _) in *. clearbody x. pose proof (Rle_abs x). pose proof (Rle_abs (- x)). rewrite Rabs_Ropp in *.
  unfold nclamp. unR. destruct (Rltb_spec (- (1)) x); rminmax; lra.
Qed.
(** over the reals *)
Theorem C137_lerp_const : forall (v o : RV) (d : R), 0 <= d -> on_segment v o (vlerpconst v o d) /\ dist v (vlerpconst v o d) <= d /\ (dist v o <= d -> vlerpconst v o d = o).
Proof.
  intros v o d P. unfold vlerpconst. destruct (vclamp_dir (vsub o v) d P) as (k & K & E). repeat split.
  - exists k. split; [exact K|]. rewrite E. destruct v as [v1 v2], o as [o1 o2]. unfold seg_point, vadd, vscale, vsub. cbn [vx vy]. unR. reflexivity.
  - pose proof (vclamp_norm (vsub o v) d P) as N. revert N. generalize (vclamp (vsub o v) d). intros [x y]. unfold norm, norm2, dist, dist2, vadd. cbn [vx vy]. unR. intros N.
    replace ((vx v - (vx v + x)) * (vx v - (vx v + x)) + (vy v - (vy v + y)) * (vy v - (vy v + y))) with (x * x + y * y) by ring. exact N.
  - intros L. rewrite vclamp_short; [destruct v as [v1 v2], o as [o1 o2]; unfold vadd, vsub; cbn [vx vy]; unR; f_equal; ring|].
    unfold norm, norm2, vsub. cbn [vx vy]. unR. unfold dist, dist2 in L. replace (_ + _) with ((vx v - vx o) * (vx v - vx o) + (vy v - vy o) * (vy v - vy o)) by ring. exact L.
Qed.
Theorem C137_slerp_ends : forall v o : RV, vslerp acos sin v o 0 = v /\ vslerp acos sin v o 1 = o.
Proof.
  intros v o. unfold vslerp. pose proof (omega_range v o) as [A B]. set (w := vomega acos v o) in *. clearbody w. pose proof (sin_gt_0 w A B) as S.
  destruct v as [v1 v2], o as [o1 o2]. unfold vlerp, vadd, vmult. unR. cbn [vx vy]. destruct (Rltb _ _); cbn [vx vy].
  - split; f_equal; lra.
  - replace ((1 - 0) * w) with w by ring. replace ((1 - 1) * w) with 0 by ring. replace (1 * w) with w by ring. replace (0 * w) with 0 by ring. rewrite sin_0. split; f_equal; field; lra.
Qed.
(** between the ends it stays in the angle between the two vectors *)
Theorem C137_slerp_between : forall (v o : RV) (t : R), 0 <= t <= 1 -> exists x y, 0 <= x /\ 0 <= y /\ vslerp acos sin v o t = vplus (vscale x v) (vscale y o).
Proof.
  intros v o t K. unfold vslerp. pose proof (omega_range v o) as [A B]. set (w := vomega acos v o) in *. clearbody w. pose proof (sin_gt_0 w A B) as S. unR. destruct (Rltb _ _).
  - exists (1 - t), t. repeat split; try lra. destruct v as [v1 v2], o as [o1 o2]. unfold vlerp, vadd, vmult, vplus, vscale. unR. cbn [vx vy]. f_equal; ring.
  - exists (sin ((1 - t) * w) * (1 / sin w)), (sin (t * w) * (1 / sin w)). assert (0 < 1 / sin w) by (unfold Rdiv; rewrite Rmult_1_l; now apply Rinv_0_lt_compat).
    assert (G : forall k, 0 <= k <= 1 -> 0 <= sin (k * w)) by (intros k Hk; apply sin_ge_0; nra).
    repeat split; try (apply Rmult_le_pos; [apply G; lra|lra]). destruct v as [v1 v2], o as [o1 o2]. unfold vadd, vmult, vplus, vscale. unR. cbn [vx vy]. f_equal; ring.
Qed.
(** SlerpConst: no turn for angle 0, all the way for an angle as large as the angle between the vectors, which is below PI *)
Theorem C137_slerp_const : forall v o : RV, vslerpconst acos sin v o 0 = v /\ (forall a, PI <= a -> vslerpconst acos sin v o a = o) /\ (forall a, 0 <= a -> exists x y, 0 <= x /\ 0 <= y /\ vslerpconst acos sin v o a = vplus (vscale x v) (vscale y o)).
Proof.
  intros v o. unfold vslerpconst. pose proof (omega_range v o) as [A B]. set (w := vomega acos v o) in *. repeat split.
  - replace (nmin 0 w / w)%num with 0; [apply C137_slerp_ends|]. unR. rewrite Rmin_left by lra. field; lra.
  - intros a L. replace (nmin a w / w)%num with 1; [apply C137_slerp_ends|]. unR. rewrite Rmin_right by lra. field; lra.
  - intros a L. apply C137_slerp_between. unR. assert (E : Rmin a w = Rmin a w / w * w) by (field; lra). pose proof (Rmin_r a w). assert (0 <= Rmin a w) by (apply Rmin_glb; lra). set (q := Rmin a w / w) in *. split; nra.
Qed.
Example C137_nonvacuous : vlerpconst (mkV 0 0) (mkV 1 0) 2 = mkV 1 0.
Proof. apply C137_lerp_const; [lra|]. unfold dist, dist2. cbn [vx vy]. match goal with |- sqrt ?x <= _ => replace x with (1 * 1) by ring end. rewrite sqrt_square; lra. Qed.

(** ** C138: from a vector to itself SlerpConst gives no vector, for every acos that is 0 at 1 and every sin *)
Definition hundred : Vec F := mkV (Flit 100 1) (Flit 0 1).
Theorem C138_slerp_const_same_vector_refuted : exists a : F, nltb (Flit 0 1) a = true /\ forall acos sin : F -> F, acos (Flit 1 1) = Flit 0 1 -> let v := vslerpconst acos sin hundred hundred a in neqb (vx v) (vx v) = false.
Proof.
  exists (Flit 1 1). split; [vm_compute; reflexivity|]. intros ac si E. cbv zeta. unfold vslerpconst, vslerp.
  assert (W : vomega ac hundred hundred = Flit 0 1) by exact E. rewrite W. vm_compute. reflexivity.
Qed.
Print Assumptions C137_lerp_const. Print Assumptions C137_slerp_ends. Print Assumptions C137_slerp_between. Print Assumptions C137_slerp_const. Print Assumptions C138_slerp_const_same_vector_refuted.

(** ** C02, the remaining box operations *)
Theorem C02_offset : forall (x : BB R) (v p : RV), in_box (bb_offset x v) (vplus p v) <-> in_box x p.
Proof. intros [l b r t] [v w] [p q]. unfold in_box, bb_offset, vplus. cbn [bl bb br bt vx vy]. unR. rewrite !Rleb_true. intuition lra. Qed.
(** MergedArea is the area of the merged box, so at least both areas *)
Theorem C02_merged_area : forall x y : BB R, ordered x -> ordered y -> bb_merged_area x y = bb_area (bb_merge x y) /\ bb_area x = (br x - bl x) * (bt x - bb x) /\ bb_area x <= bb_merged_area x y /\ bb_area y <= bb_merged_area x y.
Proof.
  intros [l b r t] [l' b' r' t'] [A B] [A' B']. cbn [bl bb br bt] in *. unfold bb_merged_area, bb_area, bb_merge. cbn [bl bb br bt]. unR. rewrite Rleb_true in *.
  split; [reflexivity|]. split; [reflexivity|].
  pose proof (Rmax_l r r'). pose proof (Rmax_r r r'). pose proof (Rmax_l t t'). pose proof (Rmax_r t t'). pose proof (Rmin_l l l'). pose proof (Rmin_r l l'). pose proof (Rmin_l b b'). pose proof (Rmin_r b b').
  split; apply Rmult_le_compat; lra.
Qed.
Example C02_offset_nonvacuous : in_box (bb_offset (mkBB 0 0 1 1) (mkV 5 5)) (mkV 6 5).
Proof. apply (C02_offset (mkBB 0 0 1 1) (mkV 5 5) (mkV 1 0)) || (replace (mkV 6 5) with (vplus (mkV 1 0) (mkV 5 5)) by (unfold vplus; cbn; f_equal; lra); apply C02_offset); unfold in_box; cbn; unR; rewrite !Rleb_true; lra. Qed.
Print Assumptions C02_offset. Print Assumptions C02_merged_area.
