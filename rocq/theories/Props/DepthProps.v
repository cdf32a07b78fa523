(** C129-C132: how deep shapes overlap, and whether contacts are found. *)
From Coq Require Import Reals ZArith NArith Bool List Lra Lia.
From Verif Require Import Num Spec SpecShapes SpecCollide SpecDepth.
From Verif.Model Require Import Vector BB Transform Shapes Collision Hull NewPoly.
From Verif.Proofs Require Import RTac Geom ShapePf ShapePf2 GjkPf GjkPf2 GjkPf3 CollPf GjkMin.
From Verif.Props Require Import CollisionProps.
Import ListNotations.
Local Open Scope R_scope.

(** a starting difference [v] that some direction shows to be extreme *)
Definition extreme (A B : RV -> Prop) (v : RV) : Prop := exists m, m <> mkV 0 0 /\ forall x y, A x -> B y -> inner (vminus y x) m <= inner v m.
Definition boxed (s : CShape R) : Prop := let k := cs_bb s in Rabs (bl k) <= huge /\ Rabs (bb k) <= huge /\ Rabs (br k) <= huge /\ Rabs (bt k) <= huge.

(** from any cached id whose two differences of corners are extreme *)
Theorem C129_least_penetration_cached : forall (a b : CShape R) id pts, regular (cs_class a) -> regular (cs_class b) -> robustly (core (cs_class a)) (core (cs_class b)) ->
  mk_ab (fst (gjk_start a b id)) <> mk_ab (snd (gjk_start a b id)) ->
  extreme (core (cs_class a)) (core (cs_class b)) (mk_ab (fst (gjk_start a b id))) -> extreme (core (cs_class a)) (core (cs_class b)) (mk_ab (snd (gjk_start a b id))) ->
  gjk a b id = Some (pts, true) ->
  cp_d pts < 0 /\
  (forall v, norm v < - cp_d pts -> overlap (core (cs_class a)) (moved v (core (cs_class b)))) /\
  (forall v, - cp_d pts + tol < inner (cp_n pts) v -> ~ overlap (core (cs_class a)) (moved v (core (cs_class b)))).
Proof.
  intros a b id pts RA RB ROB Hne X0 X1 Hg. pose proof (gjk_answer a b id pts RA RB Hne Hg) as AN.
  assert (EX : forall v, extreme (core (cs_class a)) (core (cs_class b)) v -> ext (cs_class a) (cs_class b) v).
  { intros v (m & Hm & H). exists m. assert (X : forall u, inM (cs_class a) (cs_class b) u -> inner u m <= inner v m) by (intros u (x & y & Hx & Hy & ->); auto).
    split; [|exact X]. destruct (rob_pos _ _ ROB m Hm) as (u & Hu & Hp). specialize (X u Hu). lra. }
  destruct (start_good a b id RA RB) as [G0 G1]. unfold gjk in Hg. destruct (gjk_start a b id) as [v0 v1]. cbn [fst snd] in *.
  destruct (gjk_far _ _ RA RB ROB _ _ _ _ _ G0 G1 (EX _ X0) (EX _ X1) Hne Hg) as [Hd Hf]. split; [exact Hd|]. split.
  - intros v Hv. destruct (Hf (vscale (-1) v)) as (x & y & Hx & Hy & E).
    + replace (norm (vscale (-1) v)) with (norm v); [exact Hv|]. unfold norm, norm2, vscale. cbn [vx vy]. f_equal. ring.
    + exists x. split; [exact Hx|]. unfold moved. replace (vminus x v) with y; [exact Hy|]. unfold vscale, vminus in *. injection E as E1 E2. apply vec_eq; cbn [vx vy]; lra.
  - intros v Hv (z & Hz1 & Hz2). destruct AN as (_ & _ & [(_ & _ & _ & AX & _)|(_ & Hn & _)]); [|lra].
    specialize (AX z (vminus z v) Hz1 Hz2). unfold inner, vminus in *. cbn [vx vy] in *. lra.
Qed.
(** ShapesCollide, and every collision of shapes that were apart before, start from id 0 *)
Theorem C129_least_penetration : forall (a b : CShape R) pts, regular (cs_class a) -> regular (cs_class b) -> boxed a -> boxed b -> robustly (core (cs_class a)) (core (cs_class b)) ->
  mk_ab (fst (gjk_start a b 0)) <> mk_ab (snd (gjk_start a b 0)) -> gjk a b 0 = Some (pts, true) ->
  cp_d pts < 0 /\
  (forall v, norm v < - cp_d pts -> overlap (core (cs_class a)) (moved v (core (cs_class b)))) /\
  (forall v, - cp_d pts + tol < inner (cp_n pts) v -> ~ overlap (core (cs_class a)) (moved v (core (cs_class b)))).
Proof.
  intros a b pts RA RB Ba Bb ROB Hne. apply C129_least_penetration_cached; auto; unfold gjk_start in *; cbn [N.eqb negb fst snd] in *; set (ax := vperp _) in *.
  all: assert (NZ : ax <> mkV 0 0) by (intros E; apply Hne; rewrite E; do 2 f_equal; apply vec_eq; unfold vneg; unR; cbn [vx vy]; ring).
  all: assert (BG : big ax) by (unfold boxed in Ba, Bb; cbv zeta in Ba, Bb; rewrite !abs_bounds in Ba, Bb; unfold ax, big, bb_center, vlerp, vperp, vsub, vadd, vmult; unR; cbn [vx vy]; rewrite !abs_bounds; pose proof huge_pos; lra).
  - exists ax. split; [exact NZ|]. intros x y Hx Hy. now apply support_extreme.
  - exists (vneg ax). split.
    + intros E. apply NZ. unfold vneg in E. unR. destruct ax as [p q]. cbn [vx vy] in E. injection E as E1 E2. apply vec_eq; cbn [vx vy]; lra.
    + intros x y Hx Hy. apply support_extreme; auto. unfold big, vneg in *. unR. cbn [vx vy]. now rewrite !Rabs_Ropp.
Qed.
Print Assumptions C129_least_penetration.

(** ** a point inside a triangle: all hypotheses hold *)
Definition dot0 : CShape R := mkCS (Circle (mkV 0 0) 0) (mkBB 0 0 0 0) 1 (mkV 1 0).
Definition v_a : RV := mkV (-2) (-1).
Definition v_b : RV := mkV 2 (-1).
Definition v_c : RV := mkV 0 2.
Definition tri_planes : list (Plane R) := [mkPl v_a (mkV (-1) 0); mkPl v_b (mkV 0 (-1)); mkPl v_c (mkV 1 0)].
Definition tri : CShape R := mkCS (Poly tri_planes 0) (mkBB (-2) (-1) 2 2) 2 (mkV 1 0).
Definition mk_of (v : RV) (i : N) : Mink R := mkMk (mkV 0 0) v v i.
Lemma tri_support nx ny : Rabs nx <= 10 -> Rabs ny <= 10 -> support (cs_class dot0) (cs_class tri) (mkV nx ny) =
  if Rltb (-2 * nx - ny) (2 * nx - ny) then (if Rltb (2 * nx - ny) (2 * ny) then mk_of v_c 2 else mk_of v_b 1) else (if Rltb (-2 * nx - ny) (2 * ny) then mk_of v_c 2 else mk_of v_a 0).
Proof.
  intros H1 H2. rewrite abs_bounds in *. assert (M : 100 < MaxFloat64) by (unfold MaxFloat64; apply IZR_lt; vm_compute; reflexivity).
  unfold support, dot0, tri. cbn [cs_class]. unfold support_point, poly_support_index, tri_planes. cbn [fold_left pl_v0]. unfold vdot, v_a, v_b, v_c. unR. cbn [vx vy].
  replace (Rltb (- MaxFloat64) (-2 * nx + -1 * ny)) with true by (symmetry; apply Rltb_true; lra). cbn [fst snd].
  replace (Rltb (-2 * nx + -1 * ny) (2 * nx + -1 * ny)) with (Rltb (-2 * nx - ny) (2 * nx - ny)) by (f_equal; ring).
  destruct (Rltb_spec (-2 * nx - ny) (2 * nx - ny)); cbn [fst snd].
  - replace (Rltb (2 * nx + -1 * ny) (0 * nx + 2 * ny)) with (Rltb (2 * nx - ny) (2 * ny)) by (f_equal; ring).
    destruct (Rltb_spec (2 * nx - ny) (2 * ny)); cbn; unfold mink, mk_of, v_a, v_b, v_c, vsub; cbn; unR; (f_equal; [apply vec_eq; cbn [vx vy]; lra]).
  - replace (Rltb (-2 * nx + -1 * ny) (0 * nx + 2 * ny)) with (Rltb (-2 * nx - ny) (2 * ny)) by (f_equal; ring).
    destruct (Rltb_spec (-2 * nx - ny) (2 * ny)); cbn; unfold mink, mk_of, v_a, v_b, v_c, vsub; cbn; unR; (f_equal; [apply vec_eq; cbn [vx vy]; lra]).
Qed.
Ltac rdec1 := repeat match goal with
  | |- context [Rltb ?x ?y] => first [replace (Rltb x y) with true by (symmetry; apply Rltb_true; lra)|replace (Rltb x y) with false by (symmetry; apply Rltb_false; lra)] end; cbn [andb orb negb].
Ltac sup x y := replace (support (cs_class dot0) (cs_class tri) _) with (support (cs_class dot0) (cs_class tri) (mkV x y)) by (f_equal; apply vec_eq; unfold vperp, vsub, v_a, v_b, v_c; unR; cbn [vx vy]; lra);
  rewrite (tri_support x y) by (apply abs_bounds; lra); rdec1.
Lemma tri_start : gjk_start dot0 tri 0 = (mk_of v_b 1, mk_of v_a 0).
Proof.
  unfold gjk_start. cbn [N.eqb negb]. set (ax := vperp _). assert (E : ax = mkV (1/2) 0) by (unfold ax, dot0, tri, bb_center, vlerp, vperp, vsub, vadd, vmult; cbn [cs_bb bl bb br bt]; unR; cbn [vx vy]; apply vec_eq; cbn [vx vy]; lra).
  rewrite E. replace (vneg (mkV (1/2) 0)) with (mkV (-(1/2)) 0) by (apply vec_eq; unfold vneg; unR; cbn [vx vy]; lra).
  rewrite (tri_support (1/2) 0), (tri_support (-(1/2)) 0) by (apply abs_bounds; lra). rdec1. reflexivity.
Qed.
Lemma tri_t : closest_t v_a v_b = 0 /\ closest_t v_b v_a = 0.
Proof.
  unfold closest_t, nclamp, vlensq, vdot, vsub, vadd, v_a, v_b. unR. cbn [vx vy]. split.
  - replace ((2 - -2) * (-2 + 2) + (-1 - -1) * (-1 + -1)) with 0 by ring. unfold Rdiv. rewrite Rmult_0_l. rdec1. rewrite Rmin_left by lra. ring.
  - replace ((-2 - 2) * (2 + -2) + (-1 - -1) * (-1 + -1)) with 0 by ring. unfold Rdiv. rewrite Rmult_0_l. rdec1. rewrite Rmin_left by lra. ring.
Qed.
Lemma seg_far (u w : RV) : norm2 (vminus w u) * (6/5) < cross u w * cross u w -> 6/5 < closest_dist u w.
Proof.
  intros H. unfold closest_dist. rewrite lerp_t_seg. set (q := seg_point _ _ _). change (vlensq q) with (norm2 q).
  assert (E : cross (vminus w u) q = - cross u w) by (unfold q, cross, vminus, seg_point; cbn [vx vy]; ring).
  pose proof (lagrange (vminus w u) q) as L. rewrite E in L. pose proof (sq_pos (inner (vminus w u) q)) as P.
  destruct (Rlt_dec (6/5) (norm2 q)) as [|N]; auto. exfalso.
  assert (0 <= norm2 (vminus w u) * (6/5 - norm2 q)) by (apply Rmult_le_pos; [apply norm2_nonneg|lra]). lra.
Qed.
Lemma tri_min d0 : epa_min [mk_of v_a 0; mk_of v_c 2; mk_of v_b 1] d0 = 2%nat.
Proof.
  assert (M : 100 < MaxFloat64) by (unfold MaxFloat64; apply IZR_lt; vm_compute; reflexivity).
  assert (D0 : closest_dist v_b v_a = 1).
  { unfold closest_dist. rewrite (proj2 tri_t), lerp_t_seg. unfold vlensq, vdot, seg_point, v_a, v_b. unR. cbn [vx vy]. field. }
  assert (D1 : 6/5 < closest_dist v_a v_c) by (apply seg_far; unfold norm2, cross, vminus, v_a, v_c; cbn [vx vy]; lra).
  assert (D2 : 6/5 < closest_dist v_c v_b) by (apply seg_far; unfold norm2, cross, vminus, v_c, v_b; cbn [vx vy]; lra).
  unfold epa_min, hull_pairs, loop. cbn [length Nat.sub seq combine last fold_left fst snd mk_of mk_ab]. unR. rewrite D0. do 3 (rdec1; cbn [fst snd]). reflexivity.
Qed.
Transparent huge.
Lemma ten_huge : 10 <= huge.
Proof. unfold huge. change 150%nat with (S 149). rewrite <- tech_pow_Rmult. assert (H : 1 <= 10 ^ 149) by (apply pow_R1_Rle; lra). revert H. generalize (10 ^ 149). intros. lra. Qed.
Opaque huge.
Example C129_nonvacuous : regular (cs_class dot0) /\ regular (cs_class tri) /\ boxed dot0 /\ boxed tri /\ robustly (core (cs_class dot0)) (core (cs_class tri)) /\
  mk_ab (fst (gjk_start dot0 tri 0)) <> mk_ab (snd (gjk_start dot0 tri 0)) /\ exists pts, gjk dot0 tri 0 = Some (pts, true) /\ -1 < cp_d pts < - (99/100).
Proof.
  pose proof ten_huge as Hb.
  split; [|split; [|split; [|split; [|split; [|split]]]]].
  - split; [discriminate|]. split; [cbn; lia|]. intros v [<-|[]]. cbn [vx vy]. rewrite Rabs_R0. lra.
  - split; [discriminate|]. split; [cbn; lia|]. intros v [<-|[<-|[<-|[]]]]; cbn; rewrite !abs_bounds; lra.
  - unfold boxed. cbn. rewrite !abs_bounds. lra.
  - unfold boxed. cbn. rewrite !abs_bounds. lra.
  - exists (1/4). split; [lra|]. intros v Hv. exists (mkV 0 0). split; [apply hull_vertex; now left|]. unfold moved.
    assert (Hn : vx v * vx v + vy v * vy v <= 1/16).
    { unfold norm in Hv. replace (1/4) with (sqrt ((1/4) * (1/4))) in Hv by (apply sqrt_square; lra). apply sqrt_le_0 in Hv; [unfold norm2 in Hv; lra|apply norm2_nonneg|lra]. }
    assert (S : forall z, z * z <= 1/16 -> - (1/4) <= z <= 1/4). { intros z Hz. apply abs_bounds. apply sq_le; [apply Rabs_pos|lra|]. rewrite <- Rabs_mult, Rabs_pos_eq by apply sq_pos. lra. }
    pose proof (sq_pos (vx v)). pose proof (sq_pos (vy v)). assert (X := S (vx v) ltac:(lra)). assert (Y := S (vy v) ltac:(lra)).
    set (x := - vx v). set (y := - vy v). replace (vminus (mkV 0 0) v) with (mkV x y) by (apply vec_eq; unfold vminus, x, y; cbn [vx vy]; ring).
    set (wc := (y + 1) / 3). set (wa := (1 - wc) / 2 - x / 4). set (wb := (1 - wc) / 2 + x / 4).
    assert (Ha : 0 < wa /\ 0 < wb /\ 0 <= wc) by (unfold wa, wb, wc, x, y in *; lra). destruct Ha as (Ha & Hb' & Hc).
    pose proof (hull_three [v_a; v_b; v_c] v_a v_b v_c wa wb wc) as T. match type of T with _ -> _ -> _ -> _ -> _ -> _ -> in_hull _ ?p => replace (mkV x y) with p; [apply T; auto; apply hull_vertex; cbn; auto|] end.
    unfold v_a, v_b, v_c. apply vec_eq; cbn [vx vy]; replace (wa + wb + wc) with 1 by (unfold wa, wb, wc; lra); unfold wa, wb, wc; field.
  - rewrite tri_start. cbn [fst snd mk_ab mk_of]. unfold v_a, v_b. intros [=]. lra.
  - unfold gjk. rewrite tri_start. replace gjk_fuel with (S (S (2 * maxGjk - 1))) by (unfold gjk_fuel, maxGjk; lia). generalize (2 * maxGjk - 1)%nat. intros fuel. cbn [gjk_recurse]. replace (maxGjk <? 1)%nat with false by reflexivity.
    cbn [mk_of mk_ab]. rewrite !pg_iff. replace (Rltb 0 (cross v_a v_b)) with true by (symmetry; apply Rltb_true; unfold cross, v_a, v_b; cbn [vx vy]; lra).
    replace (Rltb 0 (cross v_b v_a)) with false by (symmetry; apply Rltb_false; unfold cross, v_a, v_b; cbn [vx vy]; lra).
    rewrite (proj1 tri_t). unR. rdec1. sup 0 4. cbn [mk_of mk_ab]. unfold cross at 1 2. cbn [v_a v_b v_c vx vy]. rdec1.
    unfold epa. change (epa_recurse maxEpa) with (@epa_recurse R _ (S 29)). generalize 29%nat. intros fuel'. cbn [epa_recurse]. fold (mk_of v_a 0). fold (mk_of v_b 1). fold (mk_of v_c 2). rewrite tri_min. cbn [skipn firstn app hd nth]. cbn [mk_of mk_ab]. sup 0 (-4). cbn [mk_id mk_of N.eqb Pos.eqb orb negb andb].
    eexists. split; [reflexivity|].
    match goal with |- context [closest_points ?x ?y] => pose proof (cp_unfold x y) as HC end. cbv zeta in HC. cbn [mk_ab mk_of] in HC.
    assert (C : cross v_b v_a = -4) by (unfold cross, v_a, v_b; cbn [vx vy]; ring). rewrite C in HC. pose proof (edge_k_pos v_b v_a) as K.
    destruct HC as [(_ & _ & ->)|(H & _)]; [|lra].
    assert (EN : norm (vminus v_a v_b) = 4) by (unfold norm, norm2, vminus, v_a, v_b; cbn [vx vy]; replace ((-2 - 2) * (-2 - 2) + (-1 - -1) * (-1 - -1)) with (4 * 4) by ring; apply sqrt_square; lra).
    unfold edge_k. rewrite EN. unfold tol. split; apply Rmult_lt_reg_r with (4 + 1 / 1000000000000000); try lra; field_simplify; lra.
Qed.

(** ** C132: circles against polygons *)
(** in either order of the arguments, when the loop stops by itself *)
Lemma dist_same : forall z : RV, dist z z = 0.
Proof. intros [x y]. unfold dist, dist2, norm2, vminus. cbn [vx vy]. match goal with |- sqrt ?e = _ => replace e with 0 by ring end. apply sqrt_0. Qed.
Theorem C132_circle_polygon : forall (c p : CShape R) r ps pr pts, (exists tc, cs_class c = Circle tc r) -> cs_class p = Poly ps pr ->
  regular (cs_class c) -> regular (cs_class p) -> 0 <= r -> 0 <= pr -> mk_ab (fst (gjk_start c p 0)) <> mk_ab (snd (gjk_start c p 0)) -> gjk c p 0 = Some (pts, true) ->
  exists n l n' l', shapes_collide c p = Some (n, l) /\ shapes_collide p c = Some (n', l') /\ length l = length l' /\ (length l <= 1)%nat /\
  (overlap (covers (cs_class c)) (covers (cs_class p)) -> length l = 1%nat) /\
  (length l = 1%nat -> overlap (covers (cs_class c)) (covers (cs_class p)) \/
    exists x y u w, core (cs_class c) x /\ core (cs_class p) y /\ differs (cs_class c) (cs_class p) u /\ differs (cs_class c) (cs_class p) w /\ u <> w /\
      (dist x y * dist u w <= (r + pr) * (dist u w + tol) \/ turn u w (mkV 0 0) = 0)).
Proof.
  intros c p r ps pr pts [tc Ec] Ep RC RP Hr Hpr Hne Hg. pose proof (gjk_answer c p 0 pts RC RP Hne Hg) as AN.
  assert (SEP : r + pr < cp_d pts -> ~ overlap (covers (cs_class c)) (covers (cs_class p))).
  { intros H. eapply answer_disjoint; [exact AN| | |]; rewrite ?Ec, ?Ep; cbn [radius]; assumption. }
  assert (CO : exists i, collide c p 0 = Some (false, i) /\ collide p c 0 = Some (true, i) /\ (length (ci_arr i) = if Rleb (cp_d pts) (r + pr) then 1 else 0)%nat).
  { unfold collide. rewrite Ec, Ep. cbn [order Nat.ltb Nat.leb]. rewrite ?Ec, ?Ep. cbn [order Nat.add Nat.mul builtin nth_error call]. unfold circle_to_poly. rewrite ?Ec, ?Ep. cbn [ci_id]. rewrite Hg. unR.
    destruct (Rleb (cp_d pts) (r + pr)); cbn; eauto. }
  destruct CO as (i & E1 & E2 & L). unfold shapes_collide. rewrite E1, E2. eexists _, _, _, _. split; [reflexivity|]. split; [reflexivity|]. rewrite !map_length. split; [reflexivity|]. rewrite L.
  destruct (Rleb_spec (cp_d pts) (r + pr)) as [H|H].
  - split; [lia|]. split; [reflexivity|]. intros _. destruct AN as (Ca & Cb & [(OV & _)|(Hn & Hd & _ & u & w & Du & Dw & Huw & Hx)]).
    + left. destruct OV as (z & Z1 & Z2). exists z. split; exists z; (split; [assumption|]); rewrite dist_same, ?Ec, ?Ep; cbn [radius]; assumption.
    + right. exists (cp_a pts), (cp_b pts), u, w. split; [exact Ca|]. split; [exact Cb|]. split; [exact Du|]. split; [exact Dw|]. split; [exact Huw|]. destruct Hx as [Hx|[_ Hx]]; [left|right; exact Hx].
      eapply Rle_trans; [exact Hx|]. apply Rmult_le_compat_r; [|exact H]. pose proof tol_pos. pose proof (dist_nonneg u w). lra.
  - split; [lia|]. split; [intros OV; exfalso; apply SEP; [lra|exact OV]|discriminate].
Qed.
(** the triangle and the point above, as a polygon and a circle of radius 0 *)
Example C132_nonvacuous : exists pts, gjk dot0 tri 0 = Some (pts, true) /\ overlap (covers (cs_class dot0)) (covers (cs_class tri)).
Proof.
  destruct C129_nonvacuous as (_ & _ & _ & _ & (e & He & R) & _ & pts & E & _). exists pts. split; [exact E|]. destruct (R (mkV 0 0)) as (z & Z1 & Z2).
  - replace (norm (mkV 0 0)) with 0; [lra|]. unfold norm, norm2. cbn [vx vy]. replace (0 * 0 + 0 * 0) with 0 by ring. now rewrite sqrt_0.
  - unfold moved in Z2. replace (vminus z (mkV 0 0)) with z in Z2 by (apply vec_eq; unfold vminus; cbn [vx vy]; ring). exists z. split; exists z; (split; [assumption|]); rewrite dist_same; cbn [radius dot0 tri cs_class]; lra.
Qed.
Print Assumptions C132_circle_polygon.

(** ** C130: a vertex in the middle of an edge makes a collision disappear (binary64) *)
Definition made (vs : list (Vec F)) (h : N) : CShape F :=
  match new_poly_shape vs t_identity with Some ps => let c := poly_cache ps (Flit 0 1) t_identity in at_rest (Poly (fst c) (Flit 0 1)) (snd c) h | None => slab [] (Flit 0 1) h end.
Definition shovel : CShape F := made [fv (-50) (-30); fv 27 (-90); fv 27 (-9)] 2.
(** the corner (27,-9) of the second polygon is inside the first, at depth 1; no contact is found;
    without the superfluous point (20,-10), which is on the edge from (10,-10) to (30,-10), there is one, of depth 1 *)
Theorem C130_straight_vertex_refuted :
  let lid := made [fv 0 0; fv 40 0; fv 20 (-10); fv 10 (-10); fv 30 (-10)] 1 in let same := made [fv 0 0; fv 40 0; fv 10 (-10); fv 30 (-10)] 1 in
  Feqb (pi_dist (point_query (cs_class lid) (fv 27 (-9)))) (Flit (-1) 1) = true /\ Feqb (pi_dist (point_query (cs_class shovel) (fv 27 (-9)))) (Flit 0 1) = true /\
  depths lid shovel = [] /\ depths shovel lid = [] /\ all2 Feqb (depths same shovel) [Flit (-1) 1] = true.
Proof. cbv zeta. split; [|split; [|split; [|split]]]; vm_compute; reflexivity. Qed.
(** ** C131: two equal squares in the same place (binary64): two contacts of depth 0 with a zero normal *)
Theorem C131_coinciding_refuted : let a := slab [fv (-1) (-1); fv 1 (-1); fv 1 1; fv (-1) 1] (Flit 0 1) 1 in let b := slab [fv (-1) (-1); fv 1 (-1); fv 1 1; fv (-1) 1] (Flit 0 1) 2 in
  match shapes_collide a b with Some (n, l) => Feqb (vx n) (Flit 0 1) && Feqb (vy n) (Flit 0 1) && Nat.eqb (length l) 2 && forallb (fun c => Feqb (pt_d c) (Flit 0 1)) l | None => false end = true.
Proof. cbv zeta. vm_compute. reflexivity. Qed.
Print Assumptions C130_straight_vertex_refuted.
