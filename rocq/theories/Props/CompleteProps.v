(** C133: overlapping polygons collide, if their corners are neither straight nor sharp. *)
From Coq Require Import Reals ZArith NArith Bool List FinFun Lra Lia.
From Verif Require Import Num Spec SpecShapes SpecCollide SpecDepth.
From Verif.Model Require Import Vector BB Transform Shapes Collision Hull NewPoly.
From Verif.Proofs Require Import RTac Geom ShapePf ShapePf2 GjkPf GjkPf2 GjkPf3 CollPf GjkMin Complete.
From Verif.Props Require Import CollisionProps DepthProps.
Import ListNotations.
Local Open Scope R_scope.

(** from any cached id whose two differences of corners are extreme.
    [len]: least edge length, [k]: bluntness of the corners, [d]: depth of the overlap of the polygons without their rounding *)
Theorem C133_polygons_collide_cached : forall (a b : CShape R) id ps1 r1 ps2 r2 len k d pts, cs_class a = Poly ps1 r1 -> cs_class b = Poly ps2 r2 ->
  regular (cs_class a) -> regular (cs_class b) -> 0 <= r1 -> 0 <= r2 -> well_formed len k ps1 -> well_formed len k ps2 ->
  0 < k -> 2 * tol < len * k -> 4 * tol <= d * k -> deeper d (core (cs_class a)) (core (cs_class b)) ->
  (forall u w, differs (cs_class a) (cs_class b) u -> differs (cs_class a) (cs_class b) w -> u <> w -> tol <= dist u w) ->
  mk_ab (fst (gjk_start a b id)) <> mk_ab (snd (gjk_start a b id)) ->
  extreme (core (cs_class a)) (core (cs_class b)) (mk_ab (fst (gjk_start a b id))) -> extreme (core (cs_class a)) (core (cs_class b)) (mk_ab (snd (gjk_start a b id))) ->
  gjk a b id = Some (pts, true) ->
  exists info, collide a b id = Some (false, info) /\ (1 <= length (ci_arr info) <= 2)%nat.
Proof.
  intros a b id ps1 r1 ps2 r2 len k d pts Ea Eb RA RB Hr1 Hr2 W1 W2 Hk Hl Hd DP AP Hne X0 X1 Hg. pose proof tol_pos as TP.
  assert (Pd : 0 < d). { destruct (Rlt_dec 0 d); auto. assert (0 <= (- d) * k) by (apply Rmult_le_pos; lra). lra. }
  assert (ROB : robustly (core (cs_class a)) (core (cs_class b))) by (exists d; split; [exact Pd|exact DP]).
  assert (EX : forall v, extreme (core (cs_class a)) (core (cs_class b)) v -> ext (cs_class a) (cs_class b) v).
  { intros v (m & Hm & H). exists m. assert (X : forall u, inM (cs_class a) (cs_class b) u -> inner u m <= inner v m) by (intros u (x & y & Hx & Hy & ->); auto).
    split; [|exact X]. destruct (rob_pos _ _ ROB m Hm) as (u & Hu & Hp). specialize (X u Hu). lra. }
  assert (FN : fin (cs_class a) (cs_class b) pts).
  { destruct (start_good a b id RA RB) as [G0 G1]. unfold gjk in Hg. destruct (gjk_start a b id) as [v0 v1]. cbn [fst snd] in *.
    exact (gjk_fin _ _ RA RB ROB _ _ _ _ _ G0 G1 (EX _ X0) (EX _ X1) Hne Hg). }
  destruct (fin_ended _ _ _ d RA RB (Rlt_le _ _ Pd) DP AP FN) as [Ca Cb Amax Bmin Par Nn N1 Nh Dn Deep].
  rewrite Ea in RA, Ca, Amax. rewrite Eb in RB, Cb, Bmin. unfold core in Ca, Cb, Amax, Bmin. cbn [corners] in *.
  set (n := cp_n pts) in *.
  destruct (edge_spec len k ps1 r1 (cs_hash a) n (cp_a pts) W1 RA Hk Nn N1 Ca Amax) as (Er1 & O1 & L1 & S1).
  assert (NG : norm (vneg n) = norm n) by (unfold norm, norm2, vneg; unR; cbn [vx vy]; f_equal; ring).
  assert (IG : forall z, inner z (vneg n) = - inner z n) by (intros z; unfold inner, vneg; unR; cbn [vx vy]; ring).
  assert (CG : forall z, cross z (vneg n) = - cross z n) by (intros z; unfold cross, vneg; unR; cbn [vx vy]; ring).
  destruct (edge_spec len k ps2 r2 (cs_hash b) (vneg n) (cp_b pts) W2 RB Hk) as (Er2 & O2 & L2 & S2).
  { intros E. apply Nn. unfold vneg in E. unR. destruct n as [p q]. cbn [vx vy] in E. injection E as E1 E2. apply vec_eq; cbn [vx vy]; lra. }
  { now rewrite NG. } { exact Cb. } { intros z Hz. rewrite !IG. specialize (Bmin z Hz). lra. }
  rewrite !CG, ?IG, ?Rabs_Ropp, ?NG in *.
  assert (LK : len * k * (1 / 2) <= len * k * norm n) by (apply Rmult_le_compat_l; lra).
  destruct (contact_found (edge_for_poly ps1 r1 (cs_hash a) n) (edge_for_poly ps2 r2 (cs_hash b) (vneg n)) pts (mkCI (cp_id pts) vzero []) (cp_a pts) (cp_b pts) k) as (info & EI & LI);
    fold n; rewrite ?Er1, ?Er2; auto; try lra.
  { assert (inner (vminus (cp_b pts) (cp_a pts)) n * k <= - d / 2 * k) by (apply Rmult_le_compat_r; lra). lra. }
  exists info. split; [|exact LI].
  unfold collide. rewrite Ea, Eb. cbn [order Nat.ltb Nat.leb]. rewrite Ea, Eb. cbn [order Nat.add Nat.mul builtin nth_error call]. rewrite ?Ea, ?Eb. unfold poly_to_poly. cbn [ci_id]. rewrite Hg. fold n. unR.
  replace (Rleb (cp_d pts - r1 - r2) 0) with true by (symmetry; apply Rleb_true; lra). change (option_map (pair false) (contact_points (edge_for_poly ps1 r1 (cs_hash a) n) (edge_for_poly ps2 r2 (cs_hash b) (vneg n)) pts (mkCI (cp_id pts) vzero [])) = Some (false, info)). rewrite EI. reflexivity.
Qed.
(** ShapesCollide, and every collision of shapes that were apart before, start from id 0 *)
Theorem C133_polygons_collide : forall (a b : CShape R) ps1 r1 ps2 r2 len k d pts, cs_class a = Poly ps1 r1 -> cs_class b = Poly ps2 r2 ->
  regular (cs_class a) -> regular (cs_class b) -> boxed a -> boxed b -> 0 <= r1 -> 0 <= r2 -> well_formed len k ps1 -> well_formed len k ps2 ->
  0 < k -> 2 * tol < len * k -> 4 * tol <= d * k -> deeper d (core (cs_class a)) (core (cs_class b)) ->
  (forall u w, differs (cs_class a) (cs_class b) u -> differs (cs_class a) (cs_class b) w -> u <> w -> tol <= dist u w) ->
  mk_ab (fst (gjk_start a b 0)) <> mk_ab (snd (gjk_start a b 0)) -> gjk a b 0 = Some (pts, true) ->
  exists n l, shapes_collide a b = Some (n, l) /\ (1 <= length l <= 2)%nat.
Proof.
  intros a b ps1 r1 ps2 r2 len k d pts Ea Eb RA RB Ba Bb Hr1 Hr2 W1 W2 Hk Hl Hd DP AP Hne Hg.
  destruct (C133_polygons_collide_cached a b 0 ps1 r1 ps2 r2 len k d pts) as (info & EI & LI); auto.
  1,2: unfold gjk_start in *; cbn [N.eqb negb fst snd] in *; set (ax := vperp _) in *.
  1,2: assert (NZ : ax <> mkV 0 0) by (intros E; apply Hne; rewrite E; do 2 f_equal; apply vec_eq; unfold vneg; unR; cbn [vx vy]; ring).
  1,2: assert (BG : big ax) by (unfold boxed in Ba, Bb; cbv zeta in Ba, Bb; rewrite !abs_bounds in Ba, Bb; unfold ax, big, bb_center, vlerp, vperp, vsub, vadd, vmult; unR; cbn [vx vy]; rewrite !abs_bounds; pose proof huge_pos; lra).
  - exists ax. split; [exact NZ|]. intros x y Hx Hy. now apply support_extreme.
  - exists (vneg ax). split.
    + intros E. apply NZ. unfold vneg in E. unR. destruct ax as [p q]. cbn [vx vy] in E. injection E as E1 E2. apply vec_eq; cbn [vx vy]; lra.
    + intros x y Hx Hy. apply support_extreme; auto. unfold big, vneg in *. unR. cbn [vx vy]. now rewrite !Rabs_Ropp.
  - unfold shapes_collide. rewrite EI. eexists _, _. split; [reflexivity|]. now rewrite map_length.
Qed.
Print Assumptions C133_polygons_collide.

(** ** the normals NewPolyShape computes are as required, and moving a polygon with its body changes nothing *)
Lemma map_last {X Y} (f : X -> Y) l x d : last (map f (x :: l)) d = f (last (x :: l) x).
Proof. revert x. induction l as [|y l IH]; intros x; [reflexivity|]. change (last (map f (x :: y :: l)) d) with (last (map f (y :: l)) d). rewrite IH. f_equal. rewrite !GjkMin.last_cons. reflexivity. Qed.
Lemma pairs_map {X Y} (f : X -> Y) l : pairs (map f l) = map (fun e => (f (fst e), f (snd e))) (pairs l).
Proof.
  destruct l as [|x t]; [reflexivity|]. unfold pairs. cbn [map]. change (f x :: map f t) with (map f (x :: t)). rewrite map_last. set (z := last (x :: t) x). set (l := x :: t).
  change (f z :: map f l) with (map f (z :: l)). generalize (z :: l) as m. clear. induction l as [|y l IH]; intros [|w m]; cbn; auto. now rewrite IH.
Qed.
Lemma combine_snd {X} : forall (l m : list X), (length l <= length m)%nat -> map snd (combine m l) = l.
Proof. induction l as [|y l IH]; intros [|w m] H; cbn in *; auto; [lia|]. rewrite IH; auto. lia. Qed.
Lemma pairs_snd {X} (l : list X) : map snd (pairs l) = l.
Proof. destruct l as [|x t]; [reflexivity|]. unfold pairs. apply combine_snd. cbn; lia. Qed.
Lemma pairs_loop {X} (l : list X) d : pairs l = loop d l.
Proof. destruct l as [|x t]; [reflexivity|]. unfold pairs, loop. now rewrite !GjkMin.last_cons. Qed.
Lemma loop_chain {X} (l : list X) d e e' : In (e', e) (pairs (loop d l)) -> fst e = snd e'.
Proof.
  rewrite <- pairs_loop. intros H. assert (E : map (fun z => fst (snd z)) (pairs (pairs l)) = map (fun z => snd (fst z)) (pairs (pairs l))).
  { rewrite <- (map_map snd fst), pairs_snd. pose proof (pairs_map snd (pairs l)) as P. rewrite pairs_snd in P. rewrite P at 1. rewrite map_map. reflexivity. }
  exact (ext_in_map E _ H).
Qed.
Theorem C133_made_normals : forall (vs : list RV) p q, In (p, q) (pairs (poly_planes vs)) ->
  norm (pl_n q) <= 1 /\ exists c, 0 < c /\ pl_n q = mkV (c * (vy (pl_v0 q) - vy (pl_v0 p))) (- c * (vx (pl_v0 q) - vx (pl_v0 p))).
Proof.
  intros vs p q H. assert (E : pl_n q = edge_n (pl_v0 p) (pl_v0 q)).
  { unfold poly_planes in H. rewrite pairs_map in H. apply in_map_iff in H as ([e' e] & E & H). apply loop_chain in H. cbn [fst snd] in E. injection E as <- <-. cbn [pl_n pl_v0]. unfold edge_n. now rewrite H. }
  rewrite E. split; [apply edge_norm|]. exists (edge_k (pl_v0 p) (pl_v0 q)). split; [apply edge_k_pos|].
  unfold edge_n. rewrite normalize_eq. set (u := pl_v0 p). set (w := pl_v0 q). replace (norm (vrperp (vsub w u))) with (norm (vminus w u)) by (unfold norm, norm2, vrperp, vminus, vsub; unR; cbn [vx vy]; f_equal; ring).
  fold tol. fold (edge_k u w). unfold vscale, vrperp, vsub. unR. apply vec_eq; cbn [vx vy]; ring.
Qed.
Lemma turn_rigid (t : Transform R) (a b c : RV) : rigid t -> turn (t_point t a) (t_point t b) (t_point t c) = turn a b c.
Proof.
  intros (H1 & H2 & H3). unfold turn, t_point. unR. cbn [vx vy]. rewrite H1, H2.
  match goal with |- ?l = ?r => transitivity ((ta t * ta t + tb t * tb t) * r); [ring|rewrite H3; ring] end.
Qed.
Lemma dist_rigid (t : Transform R) (a b : RV) : rigid t -> dist (t_point t a) (t_point t b) = dist a b.
Proof.
  intros (H1 & H2 & H3). unfold dist, dist2, norm2, vminus, t_point. unR. cbn [vx vy]. rewrite H1, H2. f_equal.
  match goal with |- ?l = ?r => transitivity ((ta t * ta t + tb t * tb t) * r); [ring|rewrite H3; ring] end.
Qed.
Lemma inner_rigid (t : Transform R) (a b : RV) : rigid t -> inner (t_vect t a) (t_vect t b) = inner a b.
Proof.
  intros (H1 & H2 & H3). unfold inner, t_vect. unR. cbn [vx vy]. rewrite H1, H2.
  match goal with |- ?l = ?r => transitivity ((ta t * ta t + tb t * tb t) * r); [ring|rewrite H3; ring] end.
Qed.
(** well-formedness is a property of the shape, not of where its body is *)
Theorem C133_moves_with_body : forall t len k (ps : list (Plane R)), rigid t -> well_formed len k ps -> well_formed len k (poly_transform t ps).
Proof.
  intros t len k ps Ht [W1 W2 W3 W4 W5 W6]. set (F := fun q : Plane R => mkPl (t_point t (pl_v0 q)) (t_vect t (pl_n q))).
  assert (INJ : forall a b : RV, t_point t a = t_point t b -> a = b).
  { intros a b E. assert (D : dist a b = 0) by (rewrite <- (dist_rigid t), E by exact Ht; apply dist_same). unfold dist in D. apply sqrt_eq_0 in D; [|apply Rplus_le_le_0_compat; apply sq_pos].
    unfold dist2 in D. pose proof (sq_pos (vx a - vx b)). pose proof (sq_pos (vy a - vy b)). apply vec_eq; apply Rminus_diag_uniq; apply Rsqr_0_uniq; unfold Rsqr; lra. }
  assert (PR : forall p q, In (p, q) (pairs (poly_transform t ps)) -> exists p' q', In (p', q') (pairs ps) /\ p = F p' /\ q = F q').
  { intros p q H. unfold poly_transform in H. fold F in H. rewrite pairs_map in H. apply in_map_iff in H as ([p' q'] & E & H). injection E as <- <-. eauto. }
  constructor.
  - unfold poly_transform. now rewrite map_length.
  - unfold poly_transform. rewrite map_map. cbn [pl_v0]. rewrite <- (map_map pl_v0 (t_point t)). apply FinFun.Injective_map_NoDup; auto.
  - intros p q z H Hz N1 N2. apply PR in H as (p' & q' & H & -> & ->). unfold poly_transform in Hz. apply in_map_iff in Hz as (z' & <- & Hz). cbn [F pl_v0] in *. rewrite turn_rigid by exact Ht. apply W3; auto; congruence.
  - intros p q H. apply PR in H as (p' & q' & H & -> & ->). cbn [F pl_v0]. rewrite dist_rigid by exact Ht. auto.
  - intros p q H. apply PR in H as (p' & q' & H & -> & ->). cbn [F pl_v0 pl_n]. destruct (W5 _ _ H) as (N & c & Hc & E). split.
    + unfold norm in *. change (norm2 (t_vect t (pl_n q'))) with (inner (t_vect t (pl_n q')) (t_vect t (pl_n q'))). now rewrite inner_rigid.
    + exists c. split; [exact Hc|]. rewrite E. destruct Ht as (H1 & H2 & H3). unfold t_point, t_vect. unR. rewrite H1, H2. apply vec_eq; cbn [vx vy]; ring.
  - intros p q H. apply PR in H as (p' & q' & H & -> & ->). cbn [F pl_n]. rewrite !inner_rigid by exact Ht. exact (W6 _ _ H).
Qed.
(** ** an instance: a triangle and its reflection in the origin *)
Definition face_planes : list (Plane R) := [mkPl v_a (mkV (-3/4) (1/2)); mkPl v_b (mkV 0 (-1)); mkPl v_c (mkV (3/4) (1/2))].
Definition anti_planes : list (Plane R) := [mkPl (vneg v_a) (mkV (3/4) (-1/2)); mkPl (vneg v_b) (mkV 0 1); mkPl (vneg v_c) (mkV (-3/4) (-1/2))].
Definition face : CShape R := mkCS (Poly face_planes 0) (mkBB (-2) (-1) 2 2) 2 (mkV 1 0).
Definition anti : CShape R := mkCS (Poly anti_planes 0) (mkBB (-2) (-2) 2 1) 1 (mkV 1 0).
Definition mk_two (v : RV) (i : N) : Mink R := mkMk (vneg v) v (vscale 2 v) i.
Ltac wf_cases := intros p q; intros [H|[H|[H|[]]]]; injection H as <- <-; cbn [pl_n pl_v0].
Lemma face_well : well_formed 3 (3/20) face_planes.
Proof.
  constructor.
  - cbn; lia.
  - cbn. unfold v_a, v_b, v_c. repeat constructor; cbn; intros E; repeat destruct E as [E|E]; try exact E; apply (f_equal vx) in E as E1; apply (f_equal vy) in E; cbn [vx vy] in *; lra.
  - intros p q z Hp Hz N1 N2. destruct Hz as [<-|[<-|[<-|[]]]]; destruct Hp as [H|[H|[H|[]]]]; injection H as <- <-; cbn [pl_v0] in *; try congruence; unfold turn, v_a, v_b, v_c; cbn [vx vy]; unR; lra.
  - wf_cases; unfold dist, dist2; match goal with |- 3 <= sqrt ?e => replace 3 with (sqrt (3 * 3)) by (apply sqrt_square; lra); apply sqrt_le_1_alt end; unfold v_a, v_b, v_c; unR; cbn [vx vy]; lra.
  - wf_cases; (split; [unfold norm, norm2; cbn [vx vy]; apply Rle_trans with (sqrt 1); [apply sqrt_le_1_alt; lra|rewrite sqrt_1; lra]|]; exists (1/4); split; [lra|]; unfold v_a, v_b, v_c; apply vec_eq; unR; cbn [vx vy]; lra).
  - wf_cases; unfold inner; cbn [vx vy]; lra.
Qed.
Lemma anti_well : well_formed 3 (3/20) anti_planes.
Proof.
  constructor.
  - cbn; lia.
  - cbn. unfold vneg, v_a, v_b, v_c. unR. cbn [vx vy]. repeat constructor; cbn; intros E; repeat destruct E as [E|E]; try exact E; apply (f_equal vx) in E as E1; apply (f_equal vy) in E; cbn [vx vy] in *; lra.
  - intros p q z Hp Hz N1 N2. destruct Hz as [<-|[<-|[<-|[]]]]; destruct Hp as [H|[H|[H|[]]]]; injection H as <- <-; cbn [pl_v0] in *; try congruence; unfold turn, vneg, v_a, v_b, v_c; unR; cbn [vx vy]; lra.
  - wf_cases; unfold dist, dist2; match goal with |- 3 <= sqrt ?e => replace 3 with (sqrt (3 * 3)) by (apply sqrt_square; lra); apply sqrt_le_1_alt end; unfold vneg, v_a, v_b, v_c; unR; cbn [vx vy]; lra.
  - wf_cases; (split; [unfold norm, norm2; cbn [vx vy]; apply Rle_trans with (sqrt 1); [apply sqrt_le_1_alt; lra|rewrite sqrt_1; lra]|]; exists (1/4); split; [lra|]; unfold vneg, v_a, v_b, v_c; apply vec_eq; unR; cbn [vx vy]; lra).
  - wf_cases; unfold inner; cbn [vx vy]; lra.
Qed.
Lemma face_support nx ny : Rabs nx <= 10 -> Rabs ny <= 10 -> support (cs_class anti) (cs_class face) (mkV nx ny) =
  if Rltb (-2 * nx - ny) (2 * nx - ny) then (if Rltb (2 * nx - ny) (2 * ny) then mk_two v_c 514 else mk_two v_b 257) else (if Rltb (-2 * nx - ny) (2 * ny) then mk_two v_c 514 else mk_two v_a 0).
Proof.
  intros H1 H2. rewrite abs_bounds in *. assert (M : 100 < MaxFloat64) by (unfold MaxFloat64; apply IZR_lt; vm_compute; reflexivity).
  unfold support, anti, face. cbn [cs_class]. unfold support_point, poly_support_index, face_planes, anti_planes. cbn [fold_left pl_v0]. unfold vdot, vneg, v_a, v_b, v_c. unR. cbn [vx vy].
  replace (Rltb (- MaxFloat64) (-2 * nx + -1 * ny)) with true by (symmetry; apply Rltb_true; lra).
  replace (Rltb (- MaxFloat64) (- (-2) * - nx + - (-1) * - ny)) with true by (symmetry; apply Rltb_true; lra). cbn [fst snd].
  replace (Rltb (-2 * nx + -1 * ny) (2 * nx + -1 * ny)) with (Rltb (-2 * nx - ny) (2 * nx - ny)) by (f_equal; ring).
  replace (Rltb (- (-2) * - nx + - (-1) * - ny) (-(2) * - nx + - (-1) * - ny)) with (Rltb (-2 * nx - ny) (2 * nx - ny)) by (f_equal; ring).
  destruct (Rltb_spec (-2 * nx - ny) (2 * nx - ny)); cbn [fst snd].
  - replace (Rltb (2 * nx + -1 * ny) (0 * nx + 2 * ny)) with (Rltb (2 * nx - ny) (2 * ny)) by (f_equal; ring).
    replace (Rltb (-(2) * - nx + - (-1) * - ny) (-0 * - nx + -(2) * - ny)) with (Rltb (2 * nx - ny) (2 * ny)) by (f_equal; ring).
    destruct (Rltb_spec (2 * nx - ny) (2 * ny)); cbn; unfold mink, mk_two, v_a, v_b, v_c, vneg, vscale, vsub; cbn; unR; (f_equal; [apply vec_eq; cbn [vx vy]; lra]).
  - replace (Rltb (-2 * nx + -1 * ny) (0 * nx + 2 * ny)) with (Rltb (-2 * nx - ny) (2 * ny)) by (f_equal; ring).
    replace (Rltb (- (-2) * - nx + - (-1) * - ny) (-0 * - nx + -(2) * - ny)) with (Rltb (-2 * nx - ny) (2 * ny)) by (f_equal; ring).
    destruct (Rltb_spec (-2 * nx - ny) (2 * ny)); cbn; unfold mink, mk_two, v_a, v_b, v_c, vneg, vscale, vsub; cbn; unR; (f_equal; [apply vec_eq; cbn [vx vy]; lra]).
Qed.
Ltac sup2 x y := replace (support (cs_class anti) (cs_class face) _) with (support (cs_class anti) (cs_class face) (mkV x y)) by (f_equal; apply vec_eq; unfold vperp, vsub, vscale, v_a, v_b, v_c; unR; cbn [vx vy]; lra);
  rewrite (face_support x y) by (apply abs_bounds; lra); rdec1.
Lemma face_start : gjk_start anti face 0 = (mk_two v_b 257, mk_two v_a 0).
Proof.
  unfold gjk_start. cbn [N.eqb negb]. set (ax := vperp _). assert (E : ax = mkV 1 0) by (unfold ax, anti, face, bb_center, vlerp, vperp, vsub, vadd, vmult; cbn [cs_bb bl bb br bt]; unR; cbn [vx vy]; apply vec_eq; cbn [vx vy]; lra).
  rewrite E. replace (vneg (mkV 1 0)) with (mkV (-1) 0) by (apply vec_eq; unfold vneg; unR; cbn [vx vy]; lra).
  rewrite (face_support 1 0), (face_support (-1) 0) by (apply abs_bounds; lra). rdec1. reflexivity.
Qed.
Definition w_a : RV := vscale 2 v_a.
Definition w_b : RV := vscale 2 v_b.
Definition w_c : RV := vscale 2 v_c.
Lemma face_t : closest_t w_a w_b = 0 /\ closest_t w_b w_a = 0.
Proof.
  unfold closest_t, nclamp, vlensq, vdot, vsub, vadd, w_a, w_b, v_a, v_b, vscale. unR. cbn [vx vy]. split.
  - match goal with |- context [Rdiv ?x _] => replace x with 0 by ring end. unfold Rdiv. rewrite Rmult_0_l. rdec1. rewrite Rmin_left by lra. ring.
  - match goal with |- context [Rdiv ?x _] => replace x with 0 by ring end. unfold Rdiv. rewrite Rmult_0_l. rdec1. rewrite Rmin_left by lra. ring.
Qed.
Lemma seg_far2 (u w : RV) : norm2 (vminus w u) * (24/5) < cross u w * cross u w -> 24/5 < closest_dist u w.
Proof.
  intros H. unfold closest_dist. rewrite lerp_t_seg. set (q := seg_point _ _ _). change (vlensq q) with (norm2 q).
  assert (E : cross (vminus w u) q = - cross u w) by (unfold q, cross, vminus, seg_point; cbn [vx vy]; ring).
  pose proof (lagrange (vminus w u) q) as L. rewrite E in L. pose proof (sq_pos (inner (vminus w u) q)) as P.
  destruct (Rlt_dec (24/5) (norm2 q)) as [|N]; auto. exfalso.
  assert (0 <= norm2 (vminus w u) * (24/5 - norm2 q)) by (apply Rmult_le_pos; [apply norm2_nonneg|lra]). lra.
Qed.
Lemma face_min d0 : epa_min [mk_two v_a 0; mk_two v_c 514; mk_two v_b 257] d0 = 2%nat.
Proof.
  assert (M : 100 < MaxFloat64) by (unfold MaxFloat64; apply IZR_lt; vm_compute; reflexivity).
  assert (D0 : closest_dist w_b w_a = 4).
  { unfold closest_dist. rewrite (proj2 face_t), lerp_t_seg. unfold vlensq, vdot, seg_point, w_a, w_b, vscale, v_a, v_b. unR. cbn [vx vy]. field. }
  assert (D1 : 24/5 < closest_dist w_a w_c) by (apply seg_far2; unfold norm2, cross, vminus, w_a, w_c, vscale, v_a, v_c; cbn [vx vy]; lra).
  assert (D2 : 24/5 < closest_dist w_c w_b) by (apply seg_far2; unfold norm2, cross, vminus, w_c, w_b, vscale, v_c, v_b; cbn [vx vy]; lra).
  unfold epa_min, hull_pairs, loop. cbn [length Nat.sub seq combine last fold_left fst snd mk_two mk_ab]. fold w_a. fold w_b. fold w_c. unR. rewrite D0. do 3 (rdec1; cbn [fst snd]). reflexivity.
Qed.
(** every hypothesis of C133 holds of the two triangles *)
Example C133_nonvacuous : regular (cs_class anti) /\ regular (cs_class face) /\ boxed anti /\ boxed face /\ well_formed 3 (3/20) anti_planes /\ well_formed 3 (3/20) face_planes /\
  deeper (1/2) (core (cs_class anti)) (core (cs_class face)) /\
  (forall u w, differs (cs_class anti) (cs_class face) u -> differs (cs_class anti) (cs_class face) w -> u <> w -> tol <= dist u w) /\
  mk_ab (fst (gjk_start anti face 0)) <> mk_ab (snd (gjk_start anti face 0)) /\ (exists pts, gjk anti face 0 = Some (pts, true)) /\
  exists n l, shapes_collide anti face = Some (n, l) /\ (1 <= length l <= 2)%nat.
Proof.
  pose proof ten_huge as Hb.
  assert (RA : regular (cs_class anti)). { split; [discriminate|]. split; [cbn; lia|]. intros v [<-|[<-|[<-|[]]]]; cbn; rewrite !abs_bounds; lra. }
  assert (RF : regular (cs_class face)). { split; [discriminate|]. split; [cbn; lia|]. intros v [<-|[<-|[<-|[]]]]; cbn; rewrite !abs_bounds; lra. }
  assert (BA : boxed anti) by (unfold boxed; cbn; rewrite !abs_bounds; lra). assert (BF : boxed face) by (unfold boxed; cbn; rewrite !abs_bounds; lra).
  assert (DP : deeper (1/2) (core (cs_class anti)) (core (cs_class face))).
  { intros v Hv. assert (Hn : vx v * vx v + vy v * vy v <= 1/4).
    { unfold norm in Hv. replace (1/2) with (sqrt ((1/2) * (1/2))) in Hv by (apply sqrt_square; lra). apply sqrt_le_0 in Hv; [unfold norm2 in Hv; lra|apply norm2_nonneg|lra]. }
    assert (S : forall z, z * z <= 1/4 -> - (1/2) <= z <= 1/2). { intros z Hz. apply abs_bounds. apply sq_le; [apply Rabs_pos|lra|]. rewrite <- Rabs_mult, Rabs_pos_eq by apply sq_pos. lra. }
    pose proof (sq_pos (vx v)). pose proof (sq_pos (vy v)). assert (X := S (vx v) ltac:(lra)). assert (Y := S (vy v) ltac:(lra)).
    assert (T : forall x y, - (1/4) <= x <= 1/4 -> - (1/4) <= y <= 1/4 -> in_hull [v_a; v_b; v_c] (mkV x y)).
    { intros x y Hx Hy. set (wc := (y + 1) / 3). set (wa := (1 - wc) / 2 - x / 4). set (wb := (1 - wc) / 2 + x / 4).
      assert (Ha : 0 < wa /\ 0 < wb /\ 0 <= wc) by (unfold wa, wb, wc in *; lra). destruct Ha as (Ha & Hb' & Hc).
      pose proof (hull_three [v_a; v_b; v_c] v_a v_b v_c wa wb wc) as T. match type of T with _ -> _ -> _ -> _ -> _ -> _ -> in_hull _ ?p => replace (mkV x y) with p; [apply T; auto; apply hull_vertex; cbn; auto|] end.
      unfold v_a, v_b, v_c. apply vec_eq; cbn [vx vy]; replace (wa + wb + wc) with 1 by (unfold wa, wb, wc; lra); unfold wa, wb, wc; field. }
    assert (T' : forall x y, - (1/4) <= x <= 1/4 -> - (1/4) <= y <= 1/4 -> in_hull [vneg v_a; vneg v_b; vneg v_c] (mkV x y)).
    { intros x y Hx Hy. set (wc := (1 - y) / 3). set (wa := (1 - wc) / 2 + x / 4). set (wb := (1 - wc) / 2 - x / 4).
      assert (Ha : 0 < wa /\ 0 < wb /\ 0 <= wc) by (unfold wa, wb, wc in *; lra). destruct Ha as (Ha & Hb' & Hc).
      pose proof (hull_three [vneg v_a; vneg v_b; vneg v_c] (vneg v_a) (vneg v_b) (vneg v_c) wa wb wc) as U. match type of U with _ -> _ -> _ -> _ -> _ -> _ -> in_hull _ ?p => replace (mkV x y) with p; [apply U; auto; apply hull_vertex; cbn; auto|] end.
      unfold vneg, v_a, v_b, v_c. unR. apply vec_eq; cbn [vx vy]; replace (wa + wb + wc) with 1 by (unfold wa, wb, wc; lra); unfold wa, wb, wc; field. }
    exists (mkV (vx v / 2) (vy v / 2)). split; [apply T'; lra|]. unfold moved. replace (vminus (mkV (vx v / 2) (vy v / 2)) v) with (mkV (- (vx v / 2)) (- (vy v / 2))) by (apply vec_eq; unfold vminus; cbn [vx vy]; lra). apply T; lra. }
  assert (AP : forall u w, differs (cs_class anti) (cs_class face) u -> differs (cs_class anti) (cs_class face) w -> u <> w -> tol <= dist u w).
  { intros u w (x & y & Hx & Hy & ->) (x' & y' & Hx' & Hy' & ->) Hne. cbn in Hx, Hy, Hx', Hy'.
    assert (I : forall z, In z [v_a; v_b; v_c] \/ In z [vneg v_a; vneg v_b; vneg v_c] -> exists i j : Z, z = mkV (IZR i) (IZR j)).
    { unfold v_a, v_b, v_c, vneg. unR. cbn [vx vy]. intros z [[<-|[<-|[<-|[]]]]|[<-|[<-|[<-|[]]]]];
      [exists (-2)%Z, (-1)%Z|exists 2%Z, (-1)%Z|exists 0%Z, 2%Z|exists 2%Z, 1%Z|exists (-2)%Z, 1%Z|exists 0%Z, (-2)%Z]; apply vec_eq; cbn [vx vy]; lra. }
    destruct (I x (or_intror Hx)) as (i1 & j1 & ->). destruct (I y (or_introl Hy)) as (i2 & j2 & ->). destruct (I x' (or_intror Hx')) as (i3 & j3 & ->). destruct (I y' (or_introl Hy')) as (i4 & j4 & ->).
    unfold vminus, vsub, dist, dist2 in *. unR. cbn [vx vy] in *. rewrite <- !minus_IZR, <- !mult_IZR, <- plus_IZR. set (a := (i2 - i1 - (i4 - i3))%Z). set (b := (j2 - j1 - (j4 - j3))%Z).
    assert (AB : (1 <= a * a + b * b)%Z). { assert (a <> 0 \/ b <> 0)%Z; [|nia]. destruct (Z.eq_dec a 0) as [A0|]; auto. destruct (Z.eq_dec b 0) as [B0|]; auto. exfalso. apply Hne. rewrite <- !minus_IZR. f_equal; f_equal; unfold a, b in *; lia. }
    apply IZR_le in AB. apply Rle_trans with (sqrt 1); [rewrite sqrt_1; unfold tol; lra|]. apply sqrt_le_1_alt. exact AB. }
  assert (NE : mk_ab (fst (gjk_start anti face 0)) <> mk_ab (snd (gjk_start anti face 0))).
  { rewrite face_start. cbn [fst snd mk_ab mk_two]. unfold vscale, v_a, v_b. intros E. apply (f_equal vx) in E. cbn [vx] in E. lra. }
  assert (GJ : exists pts, gjk anti face 0 = Some (pts, true)).
  { unfold gjk. rewrite face_start. replace gjk_fuel with (S (S (2 * maxGjk - 1))) by (unfold gjk_fuel, maxGjk; lia). generalize (2 * maxGjk - 1)%nat. intros fuel. cbn [gjk_recurse]. replace (maxGjk <? 1)%nat with false by reflexivity.
    cbn [mk_two mk_ab]. fold w_a. fold w_b. rewrite !pg_iff. replace (Rltb 0 (cross w_a w_b)) with true by (symmetry; apply Rltb_true; unfold cross, w_a, w_b, vscale, v_a, v_b; cbn [vx vy]; lra).
    replace (Rltb 0 (cross w_b w_a)) with false by (symmetry; apply Rltb_false; unfold cross, w_a, w_b, vscale, v_a, v_b; cbn [vx vy]; lra).
    rewrite (proj1 face_t). unR. rdec1. unfold w_a, w_b. sup2 0 8. cbn [mk_two mk_ab]. unfold cross at 1 2. cbn [vscale v_a v_b v_c vx vy]. rdec1.
    unfold epa. change (epa_recurse maxEpa) with (@epa_recurse R _ (S 29)). generalize 29%nat. intros fuel'. cbn [epa_recurse]. fold (mk_two v_a 0). fold (mk_two v_b 257). fold (mk_two v_c 514). rewrite face_min. cbn [skipn firstn app hd nth]. cbn [mk_two mk_ab]. sup2 0 (-8). cbn [mk_id mk_two N.eqb Pos.eqb orb negb andb].
    eexists. reflexivity. }
  do 4 (split; [assumption|]). split; [exact anti_well|]. split; [exact face_well|]. do 4 (split; [assumption|]).
  destruct GJ as (pts & GJ). apply (C133_polygons_collide anti face anti_planes 0 face_planes 0 3 (3/20) (1/2) pts); auto using anti_well, face_well; try lra; unfold tol; lra.
Qed.
Print Assumptions C133_moves_with_body.
