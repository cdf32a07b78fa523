(** The answer of GJK/EPA (reals), continued: points of the Minkowski difference. *)
From Coq Require Import Reals ZArith NArith Bool List Lra Lia.
From Verif Require Import Num Spec SpecShapes SpecCollide.
From Verif.Model Require Import Vector BB Transform Shapes Collision.
From Verif.Proofs Require Import RTac Geom ShapePf ShapePf2 GjkPf.
Import ListNotations.
Local Open Scope R_scope.

Lemma dec_id i j : N.land i 255 = i -> N.land j 255 = j ->
  let id := N.lor (N.shiftl (N.land i 255) 8) (N.land j 255) in N.shiftr id 8 = i /\ N.land id 255 = j.
Proof.
  intros Hi Hj id. unfold id. rewrite Hi, Hj. split.
  - rewrite N.shiftr_lor, N.shiftr_shiftl_r, N.sub_diag, N.shiftr_0_r by lia. rewrite <- Hj, N.shiftr_land.
    change (N.shiftr 255 8) with 0%N. rewrite N.land_0_r, N.lor_0_r. reflexivity.
  - rewrite N.land_lor_distr_l, Hj. replace (N.land (N.shiftl i 8) 255) with 0%N; [reflexivity|].
    symmetry. apply N.bits_inj. intros k. rewrite N.bits_0, N.land_spec. destruct (N.ltb_spec k 8) as [Hk|Hk].
    + rewrite N.shiftl_spec_low by assumption. reflexivity.
    + change 255%N with (N.ones 8). rewrite N.ones_spec_high by assumption. apply andb_false_r.
Qed.

Lemma huge_pos : 0 < huge. Proof. unfold huge. apply pow_lt. lra. Qed.
Lemma huge_max : 8 * (huge * huge) < MaxFloat64.
Proof. unfold huge, MaxFloat64. rewrite pow_IZR, <- !mult_IZR. apply IZR_lt. vm_compute. reflexivity. Qed.
Lemma huge_ge1 : 1 <= huge. Proof. unfold huge. apply pow_R1_Rle. lra. Qed.
Global Opaque huge.
Section Pair.
Variables A B : Shape R.
Hypothesis RA : regular A.
Hypothesis RB : regular B.
Definition good (v : Mink R) : Prop := mk_a v = pt A (N.shiftr (mk_id v) 8) /\ mk_b v = pt B (N.land (mk_id v) 255) /\ mk_ab v = vminus (mk_b v) (mk_a v).
Lemma mink_good a b : named A a -> named B b -> good (mink a b).
Proof.
  intros [Ha1 Ha2] [Hb1 Hb2]. unfold good, mink. cbn [mk_a mk_b mk_ab mk_id]. destruct (dec_id _ _ Ha2 Hb2) as [E1 E2]. rewrite E1, E2. auto.
Qed.
Lemma support_good n : good (support A B n).
Proof. destruct RA as (A1 & A2 & _), RB as (B1 & B2 & _). apply mink_good; now apply support_named. Qed.
Lemma good_in v : good v -> In (mk_a v) (corners A) /\ In (mk_b v) (corners B).
Proof. intros (E1 & E2 & _). rewrite E1, E2. destruct RA as (A1 & _), RB as (B1 & _). split; now apply shape_point_in. Qed.
Lemma good_core v : good v -> core A (mk_a v) /\ core B (mk_b v).
Proof. intros G. destruct (good_in v G). split; now apply hull_vertex. Qed.
Lemma same_id v w : good v -> good w -> mk_id v = mk_id w -> mk_ab v = mk_ab w.
Proof. intros (E1 & E2 & E3) (F1 & F2 & F3) E. rewrite E3, F3, E1, E2, F1, F2, E. reflexivity. Qed.

Definition big (n : RV) : Prop := Rabs (vx n) <= 4 * huge /\ Rabs (vy n) <= 4 * huge.
Lemma dot_small s v n : regular s -> In v (corners s) -> big n -> - MaxFloat64 < inner v n.
Proof.
  intros (_ & _ & Hc) Hv [N1 N2]. destruct (Hc v Hv) as [C1 C2]. unfold inner.
  pose proof huge_max as M. pose proof huge_pos as P.
  assert (X : forall p q, Rabs p <= huge -> Rabs q <= 4 * huge -> - (huge * (4 * huge)) <= p * q).
  { intros p q Hp Hq. assert (Rabs (p * q) <= huge * (4 * huge)) by (rewrite Rabs_mult; apply Rmult_le_compat; auto; apply Rabs_pos).
    apply abs_bounds in H. lra. }
  pose proof (X _ _ C1 N1). pose proof (X _ _ C2 N2). lra.
Qed.
Lemma support_extreme n x y : big n -> core A x -> core B y -> inner (vminus y x) n <= inner (mk_ab (support A B n)) n.
Proof.
  intros Hn Hx Hy. unfold support, mink. cbn [mk_ab].
  assert (Hn' : big (vneg n)) by (unfold big, vneg in *; unR; cbn [vx vy]; rewrite !Rabs_Ropp; exact Hn).
  assert (H1 : inner x (vneg n) <= inner (sp_p (support_point A (vneg n))) (vneg n)).
  { eapply hull_le; [|exact Hx]. intros v Hv. apply support_max; auto; [apply RA|]. intros w Hw. now apply (dot_small A). }
  assert (H2 : inner y n <= inner (sp_p (support_point B n)) n).
  { eapply hull_le; [|exact Hy]. intros v Hv. apply support_max; auto; [apply RB|]. intros w Hw. now apply (dot_small B). }
  unfold inner, vneg, vminus, vsub in *. unR. cbn [vx vy] in *. lra.
Qed.
Lemma good_bound v : good v -> Rabs (vx (mk_ab v)) <= 2 * huge /\ Rabs (vy (mk_ab v)) <= 2 * huge.
Proof.
  intros G. destruct (good_in v G) as [Ha Hb]. destruct G as (_ & _ & ->). destruct RA as (_ & _ & CA), RB as (_ & _ & CB).
  specialize (CA _ Ha). specialize (CB _ Hb). unfold vminus. cbn [vx vy]. rewrite !abs_bounds in *.
  lra.
Qed.
Lemma perp_big v w : good v -> good w -> big (vperp (vsub (mk_ab v) (mk_ab w))).
Proof.
  intros G1 G2. pose proof (good_bound v G1). pose proof (good_bound w G2). unfold big, vperp, vsub. unR. cbn [vx vy]. rewrite Rabs_Ropp, !abs_bounds in *.
  lra.
Qed.
Lemma seg_big v w s : good v -> good w -> 0 <= s <= 1 -> big (vneg (seg_point (mk_ab v) (mk_ab w) s)).
Proof.
  intros G1 G2 Hs. pose proof (good_bound v G1) as [X1 Y1]. pose proof (good_bound w G2) as [X2 Y2]. unfold big, vneg, seg_point. unR. cbn [vx vy]. rewrite !Rabs_Ropp, !abs_bounds in *.
  pose proof huge_pos as P. replace (4 * huge) with (2 * (2 * huge)) by ring. set (K := 2 * huge) in *. assert (0 < K) by (unfold K; lra). clearbody K.
  assert (G : forall a b, - K <= a <= K -> - K <= b <= K -> - (2 * K) <= a + s * (b - a) <= 2 * K).
  { intros a b Ha Hb. replace (a + s * (b - a)) with ((1 - s) * a + s * b) by ring.
    assert (0 <= (1 - s) * (K - a)) by (apply Rmult_le_pos; lra). assert (0 <= (1 - s) * (K + a)) by (apply Rmult_le_pos; lra).
    assert (0 <= s * (K - b)) by (apply Rmult_le_pos; lra). assert (0 <= s * (K + b)) by (apply Rmult_le_pos; lra). lra. }
  split; now apply G.
Qed.

(** ** what ClosestPoints returns *)
Definition cross (u v : RV) : R := vx u * vy v - vy u * vx v.
Lemma pg_iff (a b : RV) : pointgreater a b vzero = Rltb 0 (cross a b).
Proof.
  unfold pointgreater, vzero, cross. unR. cbn [vx vy].
  match goal with |- Rltb ?u ?v = _ => destruct (Rltb_spec u v) end; symmetry; [apply Rltb_true|apply Rltb_false]; lra.
Qed.
Lemma pg_turn (a b c : RV) : pointgreater a b c = Rltb 0 (turn a b c).
Proof.
  unfold pointgreater, turn. unR.
  match goal with |- Rltb ?u ?v = _ => destruct (Rltb_spec u v) end; symmetry; [apply Rltb_true|apply Rltb_false]; lra.
Qed.
Definition sep (v0 v1 : Mink R) (pts : CPoints R) : Prop :=
  core A (cp_a pts) /\ core B (cp_b pts) /\
  exists s, 0 <= s <= 1 /\ (1 + closest_t (mk_ab v0) (mk_ab v1)) / 2 = s /\ vminus (cp_b pts) (cp_a pts) = seg_point (mk_ab v0) (mk_ab v1) s.
Lemma closest_sep v0 v1 : good v0 -> good v1 -> sep v0 v1 (closest_points v0 v1).
Proof.
  intros G0 G1. unfold sep, closest_points. cbv zeta. set (t := closest_t (mk_ab v0) (mk_ab v1)). pose proof (closest_t_range (mk_ab v0) (mk_ab v1)) as Ht. fold t in Ht.
  destruct (good_core _ G0), (good_core _ G1). destruct G0 as (_ & _ & E0), G1 as (_ & _ & E1).
  assert (Hs : 0 <= (1 + t) / 2 <= 1) by lra.
  match goal with |- context [if ?x then _ else _] => destruct x end; cbn [cp_a cp_b]; rewrite !lerp_t_seg;
    (split; [eapply hull_between; [exact H|exact H1|exists ((1 + t) / 2); auto]|]);
    (split; [eapply hull_between; [exact H0|exact H2|exists ((1 + t) / 2); auto]|]);
    exists ((1 + t) / 2); (split; [exact Hs|]); (split; [reflexivity|]); rewrite E0, E1; apply vec_eq; unfold vminus, seg_point; cbn [vx vy]; ring.
Qed.

Lemma norm2_vminus (x y : RV) : dist x y = norm (vminus y x).
Proof. rewrite dist_sym, dist_norm. reflexivity. Qed.
Lemma norm_le u v : norm2 u <= norm2 v -> norm u <= norm v.
Proof. intros. unfold norm. now apply sqrt_le_1_alt. Qed.
Lemma norm2_pos u : u <> mkV 0 0 -> 0 < norm2 u.
Proof.
  intros Hu. unfold norm2. pose proof (sq_pos (vx u)). pose proof (sq_pos (vy u)).
  destruct (Req_dec (vx u) 0) as [E1|E1]; [destruct (Req_dec (vy u) 0) as [E2|E2]; [exfalso; apply Hu, vec_eq; assumption|]|].
  - assert (0 < vy u * vy u) by (apply Rsqr_pos_lt in E2; exact E2). lra.
  - assert (0 < vx u * vx u) by (apply Rsqr_pos_lt in E1; exact E1). lra.
Qed.
Lemma lagrange u v : norm2 u * norm2 v = inner u v * inner u v + cross u v * cross u v.
Proof. unfold norm2, inner, cross. ring. Qed.
Lemma tol_pos : 0 < tol. Proof. unfold tol. lra. Qed.
(** the normalised right normal of an edge *)
Definition edge_n (v0 v1 : RV) : RV := vnormalize (vrperp (vsub v1 v0)).
Definition edge_k (v0 v1 : RV) : R := 1 / (norm (vminus v1 v0) + tol).
Lemma edge_k_pos v0 v1 : 0 < edge_k v0 v1.
Proof. unfold edge_k. pose proof (norm_nonneg (vminus v1 v0)). pose proof tol_pos. apply Rdiv_lt_0_compat; lra. Qed.
Lemma edge_inner v0 v1 m : inner (edge_n v0 v1) m = - edge_k v0 v1 * cross (vminus v1 v0) m.
Proof.
  unfold edge_n. rewrite normalize_eq. replace (norm (vrperp (vsub v1 v0))) with (norm (vminus v1 v0)) by (unfold norm, norm2, vrperp, vminus, vsub; unR; cbn [vx vy]; f_equal; ring).
  fold tol. fold (edge_k v0 v1). unfold inner, vscale, cross, vrperp, vminus, vsub. unR. cbn [vx vy]. ring.
Qed.
Lemma edge_norm v0 v1 : norm (edge_n v0 v1) <= 1.
Proof. unfold edge_n. left. apply normalize_norm_lt. Qed.
Lemma cp_unfold v0 v1 : let t := closest_t (mk_ab v0) (mk_ab v1) in let p := seg_point (mk_ab v0) (mk_ab v1) ((1 + t) / 2) in
  let e := edge_n (mk_ab v0) (mk_ab v1) in let d1 := edge_k (mk_ab v0) (mk_ab v1) * cross (mk_ab v0) (mk_ab v1) in
  (d1 <= 0 \/ -1 < t < 1) /\ cp_n (closest_points v0 v1) = e /\ cp_d (closest_points v0 v1) = d1 \/
  0 < d1 /\ (t = -1 \/ t = 1) /\ cp_n (closest_points v0 v1) = vscale (1 / (norm p + tol)) p /\ cp_d (closest_points v0 v1) = norm p.
Proof.
  cbv zeta. unfold closest_points. cbv zeta. set (t := closest_t (mk_ab v0) (mk_ab v1)). pose proof (closest_t_range (mk_ab v0) (mk_ab v1)) as Ht. fold t in Ht.
  rewrite lerp_t_seg. set (p := seg_point (mk_ab v0) (mk_ab v1) ((1 + t) / 2)).
  change (vnormalize (vrperp (vsub (mk_ab v1) (mk_ab v0)))) with (edge_n (mk_ab v0) (mk_ab v1)). vdi.
  assert (Ed : inner (edge_n (mk_ab v0) (mk_ab v1)) p = edge_k (mk_ab v0) (mk_ab v1) * cross (mk_ab v0) (mk_ab v1)).
  { rewrite edge_inner. unfold p, cross, vminus, seg_point. cbn [vx vy]. ring. }
  rewrite Ed. unR.
  match goal with |- context [Rleb ?d 0] => destruct (Rleb_spec d 0) as [H1|H1] end; cbn [orb].
  - left. cbn [cp_n cp_d]. auto.
  - destruct (Rltb_spec (- (1)) t) as [H2|H2]; cbn [andb]; [destruct (Rltb_spec t 1) as [H3|H3]|].
    + left. cbn [cp_n cp_d]. split; [right; lra|split; reflexivity].
    + right. cbn [cp_n cp_d]. split; [lra|]. split; [lra|]. rewrite vlen_norm. split; [|reflexivity].
      unfold tol. apply vec_eq; unfold vmult, vscale; unR; cbn [vx vy]; ring.
    + right. cbn [cp_n cp_d]. split; [lra|]. split; [lra|]. rewrite vlen_norm. split; [|reflexivity].
      unfold tol. apply vec_eq; unfold vmult, vscale; unR; cbn [vx vy]; ring.
Qed.
Lemma closest_t_cases (u w : RV) : u <> w -> let t := closest_t u w in let q := seg_point u w ((1 + t) / 2) in
  -1 < t < 1 /\ inner (vminus w u) q = 0 \/ (t = -1 /\ q = u \/ t = 1 /\ q = w) /\ inner q q <= inner u q /\ inner q q <= inner w q.
Proof.
  intros Huw t q. set (D := norm2 (vminus w u)). assert (HD : 0 < D).
  { unfold D. apply norm2_pos. intros E. apply Huw. unfold vminus in E. injection E as E1 E2. apply vec_eq; lra. }
  set (k := inner (vminus w u) (vplus u w)).
  assert (Et : t = - Rmax (-1) (Rmin (k / D) 1)).
  { unfold t, closest_t; cbv zeta. change (vlensq (vsub w u)) with D. change (vdot (vsub w u) (vadd u w)) with k. unR. rewrite clampR by lra. reflexivity. }
  assert (Hk : k = k / D * D) by (field; lra). set (z := k / D) in *.
  assert (Hq : inner (vminus w u) q = (k + t * D) / 2) by (unfold q, k, D, inner, norm2, vminus, vplus, seg_point; cbn [vx vy]; field).
  assert (Ht : t = - z /\ -1 < z < 1 \/ t = -1 /\ 1 <= z \/ t = 1 /\ z <= -1).
  { rewrite Et. unfold Rmin, Rmax. repeat destruct (Rle_dec _ _); lra. }
  clear Et. destruct Ht as [[Et Hz]|[[Et Hz]|[Et Hz]]].
  - left. split; [lra|]. rewrite Hq, Hk, Et. lra.
  - right. assert (Eq : q = u) by (unfold q; rewrite Et; apply vec_eq; unfold seg_point; cbn [vx vy]; field). split; [auto|]. clearbody t. clear Hq. subst q. rewrite Eq.
    assert (D <= k) by (rewrite Hk; apply Rle_trans with (1 * D); [lra|apply Rmult_le_compat_r; lra]).
    assert (E : k - D = 2 * (inner w u - inner u u)) by (unfold k, D, inner, norm2, vminus, vplus; cbn [vx vy]; ring). lra.
  - right. assert (Eq : q = w) by (unfold q; rewrite Et; apply vec_eq; unfold seg_point; cbn [vx vy]; field). split; [auto|]. clearbody t. clear Hq. subst q. rewrite Eq.
    assert (k <= - D) by (rewrite Hk; apply Rle_trans with (-1 * D); [apply Rmult_le_compat_r; lra|lra]).
    assert (E : k + D = 2 * (inner w w - inner u w)) by (unfold k, D, inner, norm2, vminus, vplus; cbn [vx vy]; ring). lra.
Qed.
End Pair.
