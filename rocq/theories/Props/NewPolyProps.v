(** NewPolyShape from arbitrary points (C126). *)
From Coq Require Import Reals ZArith Bool List Arith Lia Lra.
From Verif Require Import Num Spec SpecShapes SpecCollide.
From Verif.Model Require Import Vector BB Transform Shapes Hull NewPoly.
From Verif.Proofs Require Import RTac Geom ShapePf ShapePf2 PolyPf PolyPf2 HullPf HullGeo QueryGeo MassPf GjkPf NewPolyPf.
Import ListNotations.
Local Open Scope R_scope.

(** [vs] through the transform given to NewPolyShape, then through the body's. *)
Definition placed_points (vs : list RV) (t bt : Transform R) : list RV := map (fun v => t_point bt (t_point t v)) vs.
Definition in_line (vs : list RV) : Prop := forall a b c, In a vs -> In b vs -> In c vs -> turn a b c = 0.

Lemma made vs t : ~ in_line (map (t_point t) vs) -> exists hull, new_poly_shape vs t = Some (poly_planes hull) /\ convex_ccw hull /\ incl hull (map (t_point t) vs) /\ forall x, region hull x <-> in_hull (map (t_point t) vs) x.
Proof.
  intros NL. set (us := map (t_point t) vs) in *. assert (X : exists a b c, In a us /\ In b us /\ In c us /\ turn a b c <> 0).
  { destruct (Classical_Prop.classic (exists a b c, In a us /\ In b us /\ In c us /\ turn a b c <> 0)) as [X|X]; [exact X|exfalso; apply NL]. intros a b c A B C. destruct (Req_dec (turn a b c) 0) as [Z|Z]; [exact Z|exfalso; apply X; exists a, b, c; auto]. }
  destruct (hull_convex us X) as (arr & n & first & C & CV & I & RG). exists (firstn n arr). unfold new_poly_shape, poly_hull. fold us. unR. rewrite C. auto.
Qed.
Lemma rigid_region bt hull us : rigid bt -> (forall x, region hull x <-> in_hull us x) -> convex_ccw hull -> incl hull us -> forall x, region (map (t_point bt) hull) x <-> in_hull (map (t_point bt) us) x.
Proof.
  intros Rt RG CV I x. assert (CW := convex_rigid bt hull Rt CV). split.
  - intros R. apply (hull_incl (map (t_point bt) hull)); [intros y Y; apply in_map_iff in Y as (z & <- & Z); apply in_map; auto|now apply region_in_hull].
  - intros H. apply hull_in_region; auto. eapply hull_trans; [|exact H]. intros v V. apply in_map_iff in V as (u & <- & U). apply hull_map. apply region_in_hull; auto. apply RG. now apply hull_vertex.
Qed.

(** Whatever points are given, in whatever order and repeated or not, unless all are in line: the shape is the convex hull of the
    placed points.  Point queries give the distance to it from outside and minus the depth from inside; area, box and corners agree. *)
Theorem C126_hull : forall vs t bt r p, rigid bt -> 0 <= r -> ~ in_line (map (t_point t) vs) -> (forall v, In v (placed_points vs t bt) -> dist p v < MaxFloat64) ->
  let S := in_hull (placed_points vs t bt) in
  exists planes, new_poly_shape vs t = Some planes /\
  let shape := Poly (fst (poly_cache planes r bt)) r in let i := point_query shape p in
  (forall x, core shape x <-> S x) /\
  (~ S p -> distance_to S p (pi_dist i + r)) /\
  (S p -> (forall q, dist p q <= - pi_dist i - r -> S q) /\ forall eps, 0 < eps -> exists q, dist p q <= - pi_dist i - r + eps /\ ~ S q).
Proof.
  intros vs t bt r p Rt R0 NL MX. cbv zeta. destruct (made vs t NL) as (hull & E & CV & I & RG). exists (poly_planes hull). split; [exact E|]. clear E.
  set (us := map (t_point t) vs) in *. assert (EP : placed_points vs t bt = map (t_point bt) us) by (unfold placed_points, us; now rewrite map_map). rewrite EP in *.
  assert (RW := rigid_region bt hull us Rt RG CV I). set (ws := map (t_point bt) hull) in *. set (ps := map (t_point bt) us) in *.
  assert (CW : convex_ccw ws) by (now apply convex_rigid). assert (NE : hull <> []) by (intros ->; destruct CV as [L _]; cbn in L; lia).
  assert (COR : map pl_v0 (fst (poly_cache (poly_planes hull) r bt)) = ws).
  { unfold ws. rewrite <- (ring_snd (map (t_point bt) hull)). pose proof (planes_ok bt hull r NE Rt) as PL. induction PL as [|e q L qs P F IH]; [reflexivity|]. cbn [map]. f_equal; [apply P|exact IH]. }
  split; [intros x; unfold core, corners; rewrite COR, <- RW; split; [now apply hull_in_region|now apply region_in_hull]|].
  assert (MX' : exists q, boundary ws q /\ dist p q < MaxFloat64).
  { destruct hull as [|h hull'] eqn:EH; [congruence|]. exists (t_point bt h). split; [|apply MX; unfold ps; apply in_map, I; now left]. exists (last ws (t_point bt h)), (t_point bt h). split; [unfold ws; cbn [map ring]; left; reflexivity|apply on_seg_r]. }
  destruct (poly_pq hull r bt p CV Rt R0 MX') as (d & DB & IN & OUT & _). fold ws in DB, IN, OUT. cbn [point_query]. split.
  - intros NS. assert (NR : ~ region ws p) by (rewrite RW; exact NS). destruct (OUT NR) as [((q & Q & Dq) & MN) ->]. replace (d - r + r) with d by ring. split; [exists q; split; [now apply RW|exact Dq]|]. intros x X. apply MN. now apply RW.
  - intros HS. assert (RP : region ws p) by (now apply RW). rewrite (IN RP). replace (- (- d - r) - r) with d by ring. destruct (depth ws p d CW RP DB) as [G1 G2]. split; [intros q Dq; apply RW; auto|]. intros eps He. destruct (G2 eps He) as (q & Q1 & Q2). exists q. split; [exact Q1|]. rewrite <- RW. exact Q2.
Qed.
(** its area is positive, whatever the order of the points and even if the transform mirrors *)
Theorem C126_area : forall vs t, ~ in_line (map (t_point t) vs) -> exists hull, poly_hull vs t = Some hull /\ NoDup hull /\ incl hull (map (t_point t) vs) /\ forall r, 0 <= r -> 0 < area_for_poly hull r.
Proof.
  intros vs t NL. destruct (made vs t NL) as (hull & E & CV & I & _). unfold new_poly_shape in E. destruct (poly_hull vs t) as [h|] eqn:H; [|discriminate].
  (* the planes determine the vertices *)
  assert (EH : h = hull). { injection E as E. assert (G : forall l : list RV, map pl_v0 (poly_planes l) = l) by (intros l; unfold poly_planes; rewrite map_map; cbn [pl_v0]; unfold loop; apply combine_shift_snd). rewrite <- (G h), <- (G hull). now rewrite E. }
  subst h. exists hull. split; [reflexivity|]. split; [apply CV|]. split; [exact I|]. intros r R0. now apply area_ccw.
Qed.
(** five points in disorder, one of them twice, one inside, mirrored *)
Definition scattered : list RV := [mkV 1 1; mkV 0 0; mkV 4 0; mkV 0 4; mkV 4 0; mkV 2 0].
Example C126_nonvacuous : let t := mkT (-1) 0 0 1 0 0 in rigid t_identity /\ ~ in_line (map (t_point t) scattered) /\ (forall v, In v (placed_points scattered t t_identity) -> dist (mkV 0 0) v < MaxFloat64) /\
  in_hull (placed_points scattered t t_identity) (mkV (-1) 1) /\ ~ in_hull (placed_points scattered t t_identity) (mkV 1 1).
Proof.
  cbv zeta. split; [unfold rigid, t_identity; unR; cbn [ta tb tc td]; repeat split; ring|]. split; [|split; [|split]].
  - intros NL. specialize (NL (t_point (mkT (-1) 0 0 1 0 0) (mkV 0 0)) (t_point (mkT (-1) 0 0 1 0 0) (mkV 4 0)) (t_point (mkT (-1) 0 0 1 0 0) (mkV 0 4))). unfold scattered in NL. cbn [map In] in NL. assert (Z := NL ltac:(auto) ltac:(auto 10) ltac:(auto 10)). unfold turn, t_point in Z. unR. cbn [vx vy ta tb tc td ttx tty] in Z. lra.
  - intros v V. apply Rle_lt_trans with 10; [|unfold MaxFloat64; apply IZR_lt; vm_compute; reflexivity]. unfold placed_points, scattered in V. cbn [map In] in V. unfold t_point, t_identity in V. unR. cbn [vx vy ta tb tc td ttx tty] in V.
    rewrite <- (sqrt_square 10) by lra. unfold dist. apply sqrt_le_1_alt. unfold dist2. repeat (destruct V as [V|V]; [subst v; cbn [vx vy]; lra|]). destruct V.
  - apply hull_vertex. unfold placed_points, scattered. cbn [map]. left. unfold t_point, t_identity. unR. cbn [vx vy ta tb tc td ttx tty]. apply vec_eq; cbn [vx vy]; ring.
  - intros H. assert (G : forall v, In v (placed_points scattered (mkT (-1) 0 0 1 0 0) t_identity) -> inner v (mkV 1 0) <= 0).
    { intros v V. unfold placed_points, scattered in V. cbn [map In] in V. unfold t_point, t_identity in V. unR. cbn [vx vy ta tb tc td ttx tty] in V. unfold inner. repeat (destruct V as [V|V]; [subst v; cbn [vx vy]; lra|]). destruct V. }
    pose proof (hull_le _ _ _ _ G H) as L. unfold inner in L. cbn [vx vy] in L. lra.
Qed.
(** ** C127: points in line.  (3,0) is 2 away from the shape made of (0,0), (1,0); the query says it is 2 deep inside. *)
Definition fpt (x y : Z) : Vec F := mkV (F_of_Z x) (F_of_Z y).
Theorem C127_in_line_refuted : match new_poly_shape [fpt 0 0; fpt 1 0] t_identity with
  | Some planes => Feqb (pi_dist (point_query (Poly (fst (poly_cache planes (F_of_Z 0) t_identity)) (F_of_Z 0)) (fpt 3 0))) (F_of_Z (-2))
  | None => false end = true.
Proof. vm_compute. reflexivity. Qed.
Print Assumptions C127_in_line_refuted. Print Assumptions C126_hull. Print Assumptions C126_area. Print Assumptions C126_nonvacuous.
