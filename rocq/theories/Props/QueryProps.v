(** Properties C14, C15, C54, C96-C100: the queries of a space. *)
From Coq Require Import Reals ZArith NArith Bool List Arith Lra Lia.
From Flocq Require Import IEEE754.BinarySingleNaN.
From Verif Require Import Num Spec SpecShapes SpecIndex SpecQuery.
From Verif.Model Require Import Vector BB BBTree Transform Shapes Handlers Collision Query.
From Verif.Proofs Require Import RTac Util BBOrder BBTreeTop FloatMono Geom QueryPf QueryGeo QuerySeg QueryExact.
From Verif.Props Require Import Index CollisionProps.
Import ListNotations.
Local Open Scope R_scope.

(** ** C15: nearest point queries.  Floats: the answer is a shape the query may see, below the bound, and no shape it may see whose box meets the query box is nearer; otherwise the empty answer, and then none is below the bound. *)
Theorem C15_nearest_candidate : forall (W : nat -> QShape F) (e0 : env F) h p maxd f, valid e0 h ->
  let out := point_query_nearest W (run e0 h) p maxd f in
  let dist_to id := pi_dist (point_query (class_of (W id)) p) in
  (out = (None, mkPI vzero maxd vzero) \/ exists id, In id (all_members h) /\ visible f (W id) /\ out = (Some id, point_query (class_of (W id)) p) /\ Fltb (dist_to id) maxd = true) /\
  (forall d id b, In id (members d h) -> indexed e0 d id h = Some b -> bb_intersects b (bb_circle p (nmax maxd nzero)) = true -> visible f (W id) -> Fltb (dist_to id) (pi_dist (snd out)) = false).
Proof. intros. exact (nearest_ok W p f e0 h maxd H). Qed.
(** ideal arithmetic: no condition on boxes, they are those of the shapes *)
Theorem C15_nearest : forall (W : nat -> QShape R) (e0 : env R) h p maxd f, valid e0 h -> up_to_date e0 h W ->
  (forall id, In id (all_members h) -> placed (class_of (W id)) (box_of (W id)) /\ in_range p (class_of (W id))) ->
  let out := point_query_nearest W (run e0 h) p maxd f in
  let dist_to id := pi_dist (point_query (class_of (W id)) p) in
  match fst out with
  | None => forall id, In id (all_members h) -> visible f (W id) -> maxd <= dist_to id
  | Some i => In i (all_members h) /\ visible f (W i) /\ snd out = point_query (class_of (W i)) p /\ dist_to i < maxd /\
              forall id, In id (all_members h) -> visible f (W id) -> dist_to i <= dist_to id
  end.
Proof.
  intros W e0 h p maxd f Hv U P. cbv zeta. destruct (nearest_ok W p f e0 h maxd Hv) as [A B].
  assert (LE : forall id, In id (all_members h) -> visible f (W id) -> Rmin maxd (pi_dist (snd (point_query_nearest W (run e0 h) p maxd f))) <= pi_dist (point_query (class_of (W id)) p)).
  { intros id I Vi. destruct (P id I) as [P1 P2]. destruct (Rlt_dec (pi_dist (point_query (class_of (W id)) p)) maxd) as [L|L]; [|eapply Rle_trans; [apply Rmin_l|lra]].
    assert (exists d, In id (members d h)) as (d & Id) by (unfold all_members in I; apply in_app_iff in I as [I|I]; eauto).
    pose proof (B d id _ Id (U d id Id)) as Q. cbv zeta in Q. unR. specialize (Q (near_intersects _ _ p maxd P1 P2 L) Vi). apply Rltb_false in Q. eapply Rle_trans; [apply Rmin_r|exact Q]. }
  destruct A as [A|(i & I & Vi & A & L)].
  - rewrite A in *. cbn [fst snd pi_dist] in *. intros id I Vi. specialize (LE id I Vi). unfold Rmin in LE. destruct (Rle_dec maxd maxd); lra.
  - rewrite A in *. cbn [fst snd] in *. unR. apply Rltb_true in L. split; [exact I|]. split; [exact Vi|]. split; [reflexivity|]. split; [exact L|]. intros id J Vj. specialize (LE id J Vj). rewrite Rmin_right in LE; lra.
Qed.
Print Assumptions C15_nearest_candidate.
Print Assumptions C15_nearest.

(** ** C14: the first hit of a segment.  Whatever the shapes: if the hits reported for the single shapes are in the boxes that were indexed, the space returns a least one. *)
Theorem C14_least_answer : forall (W : nat -> QShape R) a b r f (e0 : env R) h, valid e0 h ->
  let hit id := segment_query (class_of (W id)) a b r in
  (forall d id x, In id (members d h) -> indexed e0 d id h = Some x -> visible f (W id) -> si_hit (hit id) = true -> 0 <= si_alpha (hit id) <= 1 /\ in_box x (seg_point a b (si_alpha (hit id)))) ->
  let out := segment_query_first W (run e0 h) a b r f in
  (out = (None, blank b) \/ exists id, In id (all_members h) /\ visible f (W id) /\ si_hit (hit id) = true /\ out = (Some id, hit id) /\ si_alpha (hit id) < 1) /\
  (forall id, In id (all_members h) -> visible f (W id) -> si_hit (hit id) = true -> si_alpha (snd out) <= si_alpha (hit id)).
Proof.
  intros W a b r f e0 h Hv hit HI out. destruct (first_ok W a b r f e0 h Hv) as [A B]; [intros d id x I E [Vi Hh]; eapply HI; eauto|].
  assert (M : forall id, In id (members false h ++ members true h) <-> In id (all_members h)) by (intros id; unfold all_members; rewrite !in_app_iff; tauto). split.
  - destruct A as [A|(id & I & [Vi Hh] & A & L)]; [left; exact A|right]. exists id. split; [now apply M|]. auto.
  - intros id I Vi Hh. apply B; [now apply M|]. split; auto.
Qed.
(** discs, thin segments and thin convex polygons ([body id] is the set of points of the shape): the answer is the first point of any visible shape along the segment *)
Theorem C14_first_point : forall (W : nat -> QShape R) a b f (body : nat -> RV -> Prop) (e0 : env R) h, a <> b -> valid e0 h -> up_to_date e0 h W ->
  (forall id, In id (all_members h) -> exact a b (class_of (W id)) (box_of (W id)) (body id)) ->
  let out := segment_query_first W (run e0 h) a b 0 f in
  match fst out with
  | None => forall id s, In id (all_members h) -> visible f (W id) -> 0 <= s < 1 -> ~ body id (seg_point a b s)
  | Some i => In i (all_members h) /\ visible f (W i) /\ first_hit (body i) a b (si_alpha (snd out)) /\ snd out = segment_query (class_of (W i)) a b 0 /\
      forall id s, In id (all_members h) -> visible f (W id) -> 0 <= s <= 1 -> body id (seg_point a b s) -> si_alpha (snd out) <= s
  end.
Proof. exact first_world. Qed.
Print Assumptions C14_least_answer.
Print Assumptions C14_first_point.

(** ** C97: Space.SegmentQuery calls back once for each shape the segment enters before its end *)
Theorem C97_every_shape_once : forall (W : nat -> QShape R) a b f (body : nat -> RV -> Prop) (e0 : env R) h, a <> b -> valid e0 h -> up_to_date e0 h W ->
  (forall id, In id (all_members h) -> exact a b (class_of (W id)) (box_of (W id)) (body id)) ->
  let calls := segment_query_all W (run e0 h) a b 0 f in
  NoDup (map fst calls) /\
  (forall id i, In (id, i) calls -> In id (all_members h) /\ accepts f (W id) /\ i = segment_query (class_of (W id)) a b 0 /\ first_hit (body id) a b (si_alpha i)) /\
  (forall id s, In id (all_members h) -> accepts f (W id) -> 0 <= s < 1 -> body id (seg_point a b s) -> In id (map fst calls)).
Proof. exact all_world. Qed.
Print Assumptions C97_every_shape_once.

(** ** C96: box queries *)
Theorem C96_box_query_exact : forall (W : nat -> QShape F) (e0 : env F) h q f, valid e0 h -> up_to_date e0 h W ->
  let called := bb_query W (run e0 h) q f in
  NoDup called /\ forall id, In id called <-> In id (all_members h) /\ accepts f (W id) /\ bb_intersects (box_of (W id)) q = true.
Proof. intros. now apply bb_query_ok. Qed.
Print Assumptions C96_box_query_exact.

(** ** C54: shape queries *)
Theorem C54_each_contact_once : forall (W : nat -> QShape F) self a (e0 : env F) h, valid e0 h ->
  let contacts id pts := reject (qs_filter a) (qs_filter (W id)) = false /\ self <> Some id /\ pts <> [] /\ exists n, shapes_collide (qs_shape a) (qs_shape (W id)) = Some (n, pts) in
  exists calls any, shape_query W (run e0 h) self a = Some (calls, any) /\ NoDup (map fst calls) /\
  (forall id pts, In (id, pts) calls -> In id (all_members h) /\ contacts id pts) /\
  (forall d id b pts, In id (members d h) -> indexed e0 d id h = Some b -> bb_intersects b (box_of a) = true -> contacts id pts -> In (id, pts) calls) /\
  (any = true -> qs_sensor a = false /\ exists id pts, In (id, pts) calls /\ qs_sensor (W id) = false) /\
  (qs_sensor a = false -> (forall id, In id (all_members h) -> qs_sensor (W id) = false) -> (any = true <-> calls <> [])).
Proof.
  intros W self a e0 h Hv contacts. destruct (shape_query_ok W self a) with (e0 := e0) (h := h) as (calls & any & E & N & S & C & A); [|exact Hv|].
  { intros b. destruct (C43_count (qs_shape a) b) as (n & pts & -> & _). discriminate. }
  exists calls, any. split; [exact E|]. split; [exact N|]. split; [exact S|]. split; [exact C|]. split; [rewrite A; apply any_true|].
  intros Sa Sw. rewrite A. apply any_all; [exact Sa|]. intros id pts I. apply Sw. apply (S id pts I).
Qed.
Print Assumptions C54_each_contact_once.

(** ** Witnesses: binary64 worlds of circles *)
Definition fcircle (x y r : Z) (sensor : bool) : QShape F := mkQS (mkCS (Circle (fvec x y) (Flit r 1)) (bb_circle (fvec x y) (Flit r 1)) 0 (fvec 1 0)) sensor (mkFilter 0 4294967295 4294967295).
Definition all_filter : Filter := mkFilter 0 4294967295 4294967295.
Definition fenv (W : nat -> QShape F) : env F := mkEnv (fun id => box_of (W id)) (fun _ => fvec 0 0).
Definition two (s0 s1 : QShape F) (id : nat) : QShape F := match id with O => s0 | _ => s1 end.
(** C98: a circle that the swept segment touches is missed, because the trees are pruned with the unswept segment *)
Theorem C98_radius_missed_refuted : let W := two (fcircle 0 0 1 false) (fcircle 10 10 1 false) in let h := [OInsert false 1; OInsert false 0]%nat in
  let a := fvec (-5) 3 in let b := fvec 5 3 in let r := Flit 3 1 in let own := segment_query (class_of (W 0%nat)) a b r in
  (si_hit own = true /\ Fltb (si_alpha own) (Flit 1 1) = true) /\ fst (segment_query_first W (run (fenv W) h) a b r all_filter) = None /\ length (segment_query_all W (run (fenv W) h) a b r all_filter) = 0%nat /\
  (* alone in the space it is found *)
  fst (segment_query_first W (run (fenv W) [OInsert false 0%nat]) a b r all_filter) = Some 0%nat.
Proof. cbv zeta. repeat split; vm_compute; reflexivity. Qed.
(** C99: the answer of ShapeQuery is that of the last shape found: a solid dynamic shape is forgotten when a static sensor follows *)
Theorem C99_overwritten_refuted : let W := two (fcircle 0 0 1 false) (fcircle 1 0 1 true) in let h := [OInsert false 1; OInsert true 0]%nat in let a := fcircle 0 1 1 false in
  match shape_query W (run (fenv W) h) None a with Some (calls, any) => map fst calls = [0; 1]%nat /\ any = false | None => False end /\
  match shape_query W (run (fenv W) [OInsert true 0%nat]) None a with Some (calls, any) => map fst calls = [0%nat] /\ any = true | None => False end.
Proof. cbv zeta. split; vm_compute; auto. Qed.
(** C100: a shape touched only at the end of the segment is reported or not depending on what else is in the space *)
Theorem C100_touch_at_end_refuted : let W := two (fcircle 10 0 1 false) (fcircle 10 10 1 false) in let a := fvec 0 0 in let b := fvec 9 0 in let r := Flit 0 1 in
  (si_hit (segment_query (class_of (W 0%nat)) a b r) = true /\ Feqb (si_alpha (segment_query (class_of (W 0%nat)) a b r)) (Flit 1 1) = true) /\
  map fst (segment_query_all W (run (fenv W) [OInsert false 0%nat]) a b r all_filter) = [0%nat] /\
  map fst (segment_query_all W (run (fenv W) [OInsert false 1%nat; OInsert false 0%nat]) a b r all_filter) = [].
Proof. cbv zeta. repeat split; vm_compute; reflexivity. Qed.
Print Assumptions C98_radius_missed_refuted.

(** ** the hypotheses are met *)
Definition fworld := two (fcircle 0 0 1 false) (fcircle 1 0 1 false).
Example C96_nonvacuous : let h := [OInsert false 1; OInsert true 0]%nat in valid (fenv fworld) h /\ up_to_date (fenv fworld) h fworld /\
  bb_query fworld (run (fenv fworld) h) (fbox 0 0 1 1) all_filter = [1; 0]%nat /\ fst (point_query_nearest fworld (run (fenv fworld) h) (fvec 3 0) (Flit 5 1) all_filter) = Some 1%nat.
Proof.
  cbv zeta. assert (EO : env_ok (fenv fworld)). { apply C10_fat_box. intros [|id]; repeat split; vm_compute; reflexivity. }
  split; [cbn -[env_ok]; split; [split; [intros [E|[]]; discriminate|intros []]|split; [split; intros []|exact EO]]|]. split; [|split; vm_compute; reflexivity].
  intros d id I. destruct d; cbn in I; destruct I as [<-|[]]; reflexivity.
Qed.
Definition rcircle (x y r : R) : QShape R := mkQS (mkCS (Circle (t_point t_identity (mkV x y)) r) (snd (circle_cache (mkV x y) r t_identity)) 0 (mkV 1 0)) false all_filter.
Definition rworld (id : nat) : QShape R := match id with O => rcircle 0 0 1 | _ => rcircle 4 0 1 end.
Definition renv : env R := mkEnv (fun id => box_of (rworld id)) (fun _ => mkV 0 0).
Lemma renv_ok : env_ok renv.
Proof.
  intros d id. destruct d; cbn [get_bb]; [|apply BBOrder.subbox_refl; repeat split]. unfold fat_bb, renv. cbn [cur vel].
  assert (O : bl (box_of (rworld id)) <= br (box_of (rworld id)) /\ bb (box_of (rworld id)) <= bt (box_of (rworld id))) by (destruct id; unfold rworld, rcircle, box_of, circle_cache, bb_circle, bb_extents; cbn [qs_shape cs_bb snd]; unR; cbn [bl bb br bt]; lra).
  unfold subbox, vmult. unR. cbn [bl bb br bt vx vy]. set (x := box_of (rworld id)) in *. clearbody x. repeat split; apply Rleb_true; rminmax; lra.
Qed.
Example C14_nonvacuous : let a := mkV (-5) 0 in let b := mkV 9 0 in let h := [OInsert false 1; OInsert true 0]%nat in
  a <> b /\ valid renv h /\ up_to_date renv h rworld /\ (forall id, In id (all_members h) -> exact a b (class_of (rworld id)) (box_of (rworld id)) (fun p => dist p (t_point t_identity (mkV (match id with O => 0 | _ => 4 end) 0)) <= 1)) /\
  (forall id, In id (all_members h) -> placed (class_of (rworld id)) (box_of (rworld id)) /\ in_range a (class_of (rworld id))) /\ visible all_filter (rworld 0%nat).
Proof.
  cbv zeta. split; [intros E; injection E; lra|]. split; [cbn -[env_ok]; split; [split; [intros [E|[]]; discriminate|intros []]|split; [split; intros []|exact renv_ok]]|]. split; [intros d id I; destruct d; cbn in I; destruct I as [<-|[]]; reflexivity|].
  split; [|split; [|split; reflexivity]]; intros id I; cbn in I; destruct I as [<-|[<-|[]]].
  - apply (exact_circle _ _ (mkV 0 0) 1 t_identity). lra.
  - apply (exact_circle _ _ (mkV 4 0) 1 t_identity). lra.
  - split; [apply (placed_circle (mkV 0 0) 1 t_identity); lra|exact Logic.I].
  - split; [apply (placed_circle (mkV 4 0) 1 t_identity); lra|exact Logic.I].
Qed.
