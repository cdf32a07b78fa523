(** Property C122: what the collision callbacks say is what the geometry says - the trees, the narrow phase and the arbiters together. *)
From Coq Require Import Reals NArith Bool List Arith Lia Lra.
From Verif Require Import Num Spec SpecShapes SpecCollide.
From Verif.Model Require Import Vector BB Transform BBTree Shapes Handlers Collision Query Space World.
From Verif.Proofs Require Import Util RTac BBOrder Geom ShapePf CollPf SpaceReach WorldPf.
From Verif.Props Require Import SpaceProps ShapeProps CollisionProps.
From Verif Require Import SpecIndex SpecSpace SpecWorld.
Import ListNotations.
Local Open Scope nat_scope.

Section P.
Context {TM : Type} {TT : Time TM}.
(** begin has been called since the pair was last apart, and the pair's preSolve of this step unless it is refused *)
Definition in_contact (s : Space TM) (x y : nat) : Prop :=
  contact (sp_log s) x y = Some Refused \/ exists p, contact (sp_log s) x y = Some (Touching p) /\ p <> Fresh.
(** Every step with these trees is a step the space's bookkeeping accepts, and it runs; so does every legal call.
    (No pair is reported twice, no pair of a shape that has left: what C29 and C72 ask of the narrow phase.) *)
Theorem C122_steps_run : forall (g0 : Geo F) (s : Space TM) h g, world g0 s h g ->
  (forall o, ~ is_step o -> legal s o -> exists s' l, exec s o = Some s' /\ world g0 s' (l ++ h) g) /\
  (forall g' order ids dt mv thr hits, stepping g0 s h g g' order ids thr hits ->
     legal s (Step dt mv thr hits) /\ exists s' l, exec s (Step dt mv thr hits) = Some s' /\ world g0 s' (l ++ OReindexQuery order :: OMove (env_of g') :: h) g').
Proof.
  intros g0 s h g W. split; [intros; now apply call_goes_on|]. intros. split; [|now apply step_goes_on with g ids]. destruct (world_ok g0 s h g W) as (R & _ & Y). now apply step_legal with g0 h g g' order ids.
Qed.
(** After a step, two shapes of which one was awake are in contact if they may touch, their boxes meet and the narrow phase finds
    contacts; they are apart if they may not touch, their boxes are disjoint or the narrow phase finds nothing - unless both have fallen asleep. *)
Theorem C122_contacts : forall (g0 : Geo F) (s : Space TM) h g g' order ids dt mv thr hits s' x y,
  world g0 s h g -> stepping g0 s h g g' order ids thr hits -> exec s (Step dt mv thr hits) = Some s' -> watched s x y ->
  (may_touch s g' x y -> bb_intersects (box_of (g_shape g' x)) (box_of (g_shape g' y)) = true -> meet g' x y -> meet g' y x -> in_contact s' x y) /\
  (~ (at_rest s' (body_of s x) /\ at_rest s' (body_of s y)) ->
   ~ may_touch s g' x y \/ bb_intersects (box_of (g_shape g' x)) (box_of (g_shape g' y)) = false \/ (miss g' x y /\ miss g' y x) ->
   contact (sp_log s') x y = Some Apart).
Proof.
  intros g0 s h g g' order ids dt mv thr hits s' x y W St E Wt. destruct (world_ok g0 s h g W) as (R & _ & Y). split; intros.
  - now apply (touch g0 s h g g' order ids dt mv thr hits R Y St s' E).
  - now apply (apart g0 s h g g' order ids dt mv thr hits R Y St s' E).
Qed.
Local Open Scope R_scope.
(** ** Over exact arithmetic *)
(** circles and segments as CacheBB leaves them *)
Definition circle_at (q : QShape R) (c : Vec R) (r : R) : Prop := 0 <= r /\ exists c0 t, t_point t c0 = c /\ class_of q = Circle (fst (circle_cache c0 r t)) r /\ box_of q = snd (circle_cache c0 r t).
Definition segment_at (q : QShape R) (a b : Vec R) (r : R) : Prop :=
  0 <= r /\ a <> b /\ exists a0 b0 t, t_point t a0 = a /\ t_point t b0 = b /\ class_of q = Segment (fst (seg_cache (new_segment a0 b0 r) t)) /\ box_of q = snd (seg_cache (new_segment a0 b0 r) t).
Definition polygon_at (q : QShape R) (vs : list (Vec R)) (r : R) : Prop :=
  0 <= r /\ vs <> [] /\ exists vs0 t, map (t_point t) vs0 = vs /\ class_of q = Poly (fst (poly_cache (poly_planes vs0) r t)) r /\ box_of q = snd (poly_cache (poly_planes vs0) r t).
(** the set of points a shape covers *)
Definition occupies (q : QShape R) (P : Vec R -> Prop) : Prop :=
  (exists c r, circle_at q c r /\ P = near (fun p => p = c) r) \/ (exists a b r, segment_at q a b r /\ P = near (on_segment a b) r) \/
  (exists vs r, polygon_at q vs r /\ P = near (in_hull vs) r).
Lemma boxed q P p : occupies q P -> P p -> in_box (box_of q) p.
Proof.
  intros [(c & r & (R0 & c0 & t & <- & _ & ->) & ->)|[(a & b & r & (R0 & _ & a0 & b0 & t & <- & <- & _ & ->) & ->)|(vs & r & (R0 & _ & vs0 & t & <- & _ & ->) & ->)]] D; [now apply C44_circle|now apply C44_segment|now apply C44_polygon].
Qed.
Lemma boxes_meet q k P Q p : occupies q P -> occupies k Q -> P p -> Q p -> bb_intersects (box_of q) (box_of k) = true.
Proof.
  intros H1 H2 D1 D2. pose proof (boxed q P p H1 D1) as B1. pose proof (boxed k Q p H2 D2) as B2. unfold in_box in *. unfold bb_intersects. unR. rewrite !Rleb_true in *. rewrite !andb_true_iff, !Rleb_true. lra.
Qed.
(** The boxes and the trees never hide a pair: if two shapes overlap, what the narrow phase says decides. *)
Theorem C122_overlap_is_seen : forall (g0 : Geo R) (s : Space TM) h g g' order ids dt mv thr hits s' x y P Q,
  world g0 s h g -> stepping g0 s h g g' order ids thr hits -> exec s (Step dt mv thr hits) = Some s' -> watched s x y -> may_touch s g' x y ->
  occupies (g_shape g' x) P -> occupies (g_shape g' y) Q -> overlap P Q -> meet g' x y -> meet g' y x -> in_contact s' x y.
Proof.
  intros g0 s h g g' order ids dt mv thr hits s' x y P Q W St E Wt M H1 H2 (p & D1 & D2) M1 M2. destruct (world_ok g0 s h g W) as (R & _ & Y).
  apply (touch g0 s h g g' order ids dt mv thr hits R Y St s' E); auto. exact (boxes_meet _ _ _ _ p H1 H2 D1 D2).
Qed.
Lemma collide_circles (a b : CShape R) c1 r1 c2 r2 id : cs_class a = Circle c1 r1 -> cs_class b = Circle c2 r2 -> 0 <= r1 -> 0 <= r2 ->
  exists sw info, collide a b id = Some (sw, info) /\ (dist c1 c2 < r1 + r2 -> ci_arr info <> []) /\ (r1 + r2 <= dist c1 c2 -> ci_arr info = []).
Proof.
  intros E1 E2 R1 R2. destruct (C39_circles c1 r1 c2 r2 id R1 R2) as (info & E & A & B). exists false, info. unfold collide. rewrite E1, E2. cbn [order Nat.ltb Nat.leb nth_error builtin Nat.add Nat.mul call]. unfold call. rewrite E1, E2.
  unfold vzero. unR. rewrite E. split; [reflexivity|]. split; [|exact A]. intros D. destruct (B D) as (_ & _ & p1 & p2 & -> & _). discriminate.
Qed.
Lemma dist_sym (a b : Vec R) : dist a b = dist b a.
Proof. unfold dist, dist2. f_equal. ring. Qed.
Lemma circles_overlap c1 r1 c2 r2 : 0 <= r1 -> 0 <= r2 -> dist c1 c2 < r1 + r2 -> overlap (near (fun p => p = c1) r1) (near (fun p => p = c2) r2).
Proof.
  intros R1 R2 D. set (t := if Rle_dec (r1 + r2) 0 then 0 else r1 / (r1 + r2)). exists (seg_point c1 c2 t).
  assert (Dn : 0 <= dist c1 c2) by apply dist_nonneg.
  assert (T0 : 0 <= t <= 1 /\ t * dist c1 c2 <= r1 /\ (1 - t) * dist c1 c2 <= r2).
  { unfold t. destruct (Rle_dec (r1 + r2) 0) as [Z|Z]; [lra|]. apply Rnot_le_lt in Z. assert (I0 : r1 / (r1 + r2) * (r1 + r2) = r1) by (field; lra). set (u := r1 / (r1 + r2)) in *. assert (U : 0 <= u) by (apply Rmult_le_pos; [exact R1|left; now apply Rinv_0_lt_compat]).
    assert (U1 : u <= 1) by nra. split; [lra|]. split; nra. }
  destruct T0 as (T0 & T1 & T2). split; [exists c1|exists c2]; (split; [reflexivity|]).
  - replace (dist (seg_point c1 c2 t) c1) with (t * dist c1 c2); [exact T1|]. rewrite <- (Rabs_pos_eq t) at 1 by lra. unfold dist. rewrite <- sqrt_Rsqr_abs, <- sqrt_mult_alt by apply Rle_0_sqr. f_equal. unfold dist2, seg_point, Rsqr. cbn [vx vy]. ring.
  - replace (dist (seg_point c1 c2 t) c2) with ((1 - t) * dist c1 c2); [exact T2|]. rewrite <- (Rabs_pos_eq (1 - t)) at 1 by lra. unfold dist. rewrite <- sqrt_Rsqr_abs, <- sqrt_mult_alt by apply Rle_0_sqr. f_equal. unfold dist2, seg_point, Rsqr. cbn [vx vy]. ring.
Qed.
(** Two circles, one of them awake, are in contact after a step exactly if their centres are closer than the sum of the radii. *)
Theorem C122_circles : forall (g0 : Geo R) (s : Space TM) h g g' order ids dt mv thr hits s' x y c1 r1 c2 r2,
  world g0 s h g -> stepping g0 s h g g' order ids thr hits -> exec s (Step dt mv thr hits) = Some s' -> watched s x y -> may_touch s g' x y ->
  circle_at (g_shape g' x) c1 r1 -> circle_at (g_shape g' y) c2 r2 ->
  (dist c1 c2 < r1 + r2 -> in_contact s' x y) /\
  (r1 + r2 <= dist c1 c2 -> ~ (at_rest s' (body_of s x) /\ at_rest s' (body_of s y)) -> contact (sp_log s') x y = Some Apart).
Proof.
  intros g0 s h g g' order ids dt mv thr hits s' x y c1 r1 c2 r2 W St E Wt M H1 H2. destruct (world_ok g0 s h g W) as (R & _ & Y).
  pose proof H1 as (R1 & c10 & t1 & T1 & K1 & _). pose proof H2 as (R2 & c20 & t2 & T2 & K2 & _). cbn [circle_cache fst] in K1, K2. rewrite T1 in K1. rewrite T2 in K2. unfold class_of in K1, K2. split.
  - intros D. apply (C122_overlap_is_seen g0 s h g g' order ids dt mv thr hits s' x y (near (fun p => p = c1) r1) (near (fun p => p = c2) r2)); auto; [left; eauto|left; eauto|now apply circles_overlap| |].
    + intros id. destruct (collide_circles _ _ c1 r1 c2 r2 id K1 K2 R1 R2) as (sw & info & Ec & A & _). exists sw, info. split; [exact Ec|now apply A].
    + intros id. destruct (collide_circles _ _ c2 r2 c1 r1 id K2 K1 R2 R1) as (sw & info & Ec & A & _). exists sw, info. split; [exact Ec|]. apply A. rewrite dist_sym. lra.
  - intros D Aw. apply (apart g0 s h g g' order ids dt mv thr hits R Y St s' E); auto. right. right. split; intros id sw info Ec.
    + destruct (collide_circles _ _ c1 r1 c2 r2 id K1 K2 R1 R2) as (sw' & info' & Ec' & _ & A). rewrite Ec in Ec'. injection Ec' as <- <-. now apply A.
    + destruct (collide_circles _ _ c2 r2 c1 r1 id K2 K1 R2 R1) as (sw' & info' & Ec' & _ & A). rewrite Ec in Ec'. injection Ec' as <- <-. apply A. rewrite dist_sym. lra.
Qed.
(** A circle and a (rounded) segment: exactly if the segment's core passes closer to the centre than the sum of the radii. *)
Lemma collide_circle_segment (a b : CShape R) c r (sg : Seg R) id d : cs_class a = Circle c r -> cs_class b = Segment sg -> 0 <= r -> 0 <= sg_r sg -> sg_ta sg <> sg_tb sg ->
  distance_to (on_segment (sg_ta sg) (sg_tb sg)) c d ->
  (exists sw info, collide a b id = Some (sw, info) /\ (d < r + sg_r sg -> ci_arr info <> []) /\ (r + sg_r sg <= d -> ci_arr info = [])) /\
  (exists sw info, collide b a id = Some (sw, info) /\ (d < r + sg_r sg -> ci_arr info <> []) /\ (r + sg_r sg <= d -> ci_arr info = [])).
Proof.
  intros E1 E2 R1 R2 Hne Hd. destruct (C39_circle_segment c r sg (cs_rot b) id R1 R2 Hne) as (info & q & E & Oq & Dq & A & B). unfold vzero in *.
  assert (Q : d = dist c q). { destruct Hd as [(p & P1 & P2) Hd]. destruct Dq as [_ Dq]. apply Rle_antisym; [now apply Hd|rewrite <- P2; now apply Dq]. }
  assert (N : d < r + sg_r sg -> ci_arr info <> []). { intros L. destruct B as (_ & _ & p1 & p2 & -> & _); [lra|discriminate]. }
  assert (N2 : r + sg_r sg <= d -> ci_arr info = []) by (intros L; apply A; lra).
  split; [exists false, info|exists true, info]; unfold collide; rewrite E1, E2; cbn [order Nat.ltb Nat.leb nth_error builtin Nat.add Nat.mul]; rewrite ?E1, ?E2; cbn [order Nat.ltb Nat.leb nth_error builtin Nat.add Nat.mul]; unfold call; rewrite E1, E2; unfold vzero; unR; rewrite E; (split; [reflexivity|auto]).
Qed.
Theorem C122_circle_segment : forall (g0 : Geo R) (s : Space TM) h g g' order ids dt mv thr hits s' x y c r1 a b r2 d,
  world g0 s h g -> stepping g0 s h g g' order ids thr hits -> exec s (Step dt mv thr hits) = Some s' -> watched s x y -> may_touch s g' x y ->
  circle_at (g_shape g' x) c r1 -> segment_at (g_shape g' y) a b r2 -> distance_to (on_segment a b) c d ->
  (d < r1 + r2 -> in_contact s' x y) /\
  (r1 + r2 <= d -> ~ (at_rest s' (body_of s x) /\ at_rest s' (body_of s y)) -> contact (sp_log s') x y = Some Apart).
Proof.
  intros g0 s h g g' order ids dt mv thr hits s' x y c r1 a b r2 d W St E Wt M H1 H2 Hd. destruct (world_ok g0 s h g W) as (R & _ & Y).
  pose proof H1 as (R1 & c0 & t1 & T1 & K1 & _). pose proof H2 as (R2 & Nab & a0 & b0 & t2 & Ta & Tb & K2 & _). cbn [circle_cache fst] in K1. rewrite T1 in K1. unfold class_of in K1, K2.
  assert (SG : sg_ta (fst (seg_cache (new_segment a0 b0 r2) t2)) = a /\ sg_tb (fst (seg_cache (new_segment a0 b0 r2) t2)) = b /\ sg_r (fst (seg_cache (new_segment a0 b0 r2) t2)) = r2).
  { unfold seg_cache. repeat match goal with |- context [let (_, _) := ?z in _] => destruct z end. cbn [fst sg_ta sg_tb sg_r new_segment sg_a sg_b]. auto. }
  set (sg := fst (seg_cache (new_segment a0 b0 r2) t2)) in *. clearbody sg. destruct SG as (<- & <- & <-).
  assert (K := fun id => collide_circle_segment _ _ c r1 sg id d K1 K2 R1 R2 Nab Hd). split.
  - intros D. apply (C122_overlap_is_seen g0 s h g g' order ids dt mv thr hits s' x y (near (fun p => p = c) r1) (near (on_segment (sg_ta sg) (sg_tb sg)) (sg_r sg))); auto; [left; eauto|right; left; eauto 10| | |].
    + destruct Hd as [(q & Q1 & Q2) _]. destruct (circles_overlap c r1 q (sg_r sg) R1 R2) as (p & P1 & P2); [lra|]. exists p. split; [exact P1|]. destruct P2 as (z & -> & Z). exists q. auto.
    + intros id. destruct (K id) as [(sw & info & Ec & A & _) _]. exists sw, info. split; [exact Ec|now apply A].
    + intros id. destruct (K id) as [_ (sw & info & Ec & A & _)]. exists sw, info. split; [exact Ec|now apply A].
  - intros D Aw. apply (apart g0 s h g g' order ids dt mv thr hits R Y St s' E); auto. right. right. split; intros id sw info Ec.
    + destruct (K id) as [(sw' & info' & Ec' & _ & A) _]. rewrite Ec in Ec'. injection Ec' as <- <-. now apply A.
    + destruct (K id) as [_ (sw' & info' & Ec' & _ & A)]. rewrite Ec in Ec'. injection Ec' as <- <-. now apply A.
Qed.
End P.

(** *** Concrete: two circles of radius 1; they start 10 apart, and the step brings them to distance 1 *)
Local Existing Instance time_nat.
Local Open Scope R_scope.
Definition ring (x y : R) : QShape R := mkQS (mkCS (Circle (mkV x y) 1) (bb_circle (mkV x y) 1) 1%N (mkV 1 0)) false (mkFilter 0 1 1)%N.
Definition demo_geo (d : R) : Geo R := mkGeo (fun k => match k with 0%nat => ring 0 0 | _ => ring d 0 end) (fun _ => mkV 0 0).
Lemma demo_env d : env_ok (env_of (demo_geo d)).
Proof.
  intros k id. unfold get_bb, env_of, subbox. cbn [cur vel demo_geo g_shape g_vel]. set (q := match id with 0%nat => _ | _ => _ end).
  assert (B : exists z, box_of q = bb_circle (mkV z 0) 1) by (destruct id; eexists; reflexivity). destruct B as (z & ->). destruct k; unfold fat_bb, bb_circle, vmult; unR; cbn [bl bb br bt vx vy]; rewrite !Rleb_true.
  - repeat split; rminmax; lra.
  - lra.
Qed.
(** hits for any step: fresh arbiters *)
Fixpoint number (n : nat) (l : list (nat * nat)) : list Hit := match l with [] => [] | p :: l => mkHit (fst p) (snd p) n true true false :: number (S n) l end.
Lemma number_spec n l : map (fun k => (h_a k, h_b k)) (number n l) = l /\ NoDup (map h_new (number n l)) /\ forall k, In k (number n l) -> (n <= h_new k)%nat.
Proof.
  revert n. induction l as [|[a b] l IH]; intros n; cbn [number map fst snd h_a h_b h_new]; [repeat split; [constructor|intros ? []]|]. destruct (IH (S n)) as (A & B & C). rewrite A. repeat split.
  - constructor; [|exact B]. intros D. apply in_map_iff in D as (k & K & D). specialize (C k D). lia.
  - intros k [<-|D]; [cbn; lia|]. specialize (C k D). lia.
Qed.
Lemma a_step {TM} {TT : Time TM} (g0 g g' : Geo R) (s : Space TM) h order ids thr : world g0 s h g -> env_ok (env_of g') -> (forall x, In x (sp_didx s) -> In x order) ->
  (forall x, In x (sp_sidx s) -> box_of (g_shape g' x) = box_of (g_shape g x)) -> (thr = None -> sp_sleep s = []) -> (forall th, thr = Some th -> tltb t0 th = true) ->
  exists hits, stepping g0 s h g g' order ids thr hits.
Proof.
  intros W Eg O S0 N0 N1. destruct (world_ok g0 s h g W) as (_ & V & Y & _). set (l := collide_pairs s g' ids (snd (ix_reindex_query (env_of g') order (run (env_of g0) (OMove (env_of g') :: h))))).
  destruct (number_spec (sp_na s) l) as (A & B & C). exists (number (sp_na s) l). constructor; auto.
  cbn [valid allowed members]. split; [|split; auto]. intros id D. apply O. now apply Y.
Qed.
Lemma id_point (v : Vec R) : t_point (mkT 1 0 0 1 0 0) v = v.
Proof. apply vec_eq; unfold t_point; unR; cbn [vx vy Transform.ta Transform.tb Transform.tc Transform.td ttx tty]; ring. Qed.
Definition pair0 : Space nat := space_init (fun b => match b with 0%nat => Stat | _ => Dyn end) (fun x => (S x, false)) (fun _ => (1%nat, 2%nat, true)) 0%nat.
Definition pair1 : Space nat := exs pair0 [AddBody 1%nat; AddBody 2%nat; AddShape 0%nat; AddShape 1%nat].
Lemma w_ex (g0 : Geo R) s h g o : world g0 s h g -> ~ is_step o -> legal s o -> exists l, world (TM := nat) g0 (ex s o) (l ++ h) g.
Proof. intros W N L. destruct (call_goes_on g0 s h g o W N L) as (s' & l & E & W'). exists l. unfold ex. now rewrite E. Qed.
Example C122_nonvacuous : exists (h : list (op R)) ids hits s', world (demo_geo 10) pair1 h (demo_geo 10) /\ stepping (demo_geo 10) pair1 h (demo_geo 10) (demo_geo 1) [0; 1]%nat ids (Some 5%nat) hits /\
  exec pair1 (Step 1%nat (fun _ => true) (Some 5%nat) hits) = Some s' /\ watched pair1 0%nat 1%nat /\ may_touch pair1 (demo_geo 1) 0%nat 1%nat /\ in_contact s' 0%nat 1%nat.
Proof.
  assert (W : exists h, world (demo_geo 10) pair1 h (demo_geo 10)).
  { assert (W0 : world (TM := nat) (demo_geo 10) pair0 [] (demo_geo 10)). { apply w_new; [|apply demo_env]. eexists _, _, _, 0%nat. split; [|reflexivity]. reflexivity. }
    destruct (w_ex _ _ _ _ (AddBody 1%nat) W0) as (l1 & W1); [exact (fun D => D)|leg|]. destruct (w_ex _ _ _ _ (AddBody 2%nat) W1) as (l2 & W2); [exact (fun D => D)|leg|].
    destruct (w_ex _ _ _ _ (AddShape 0%nat) W2) as (l3 & W3); [exact (fun D => D)|leg|]. destruct (w_ex _ _ _ _ (AddShape 1%nat) W3) as (l4 & W4); [exact (fun D => D)|leg|]. eexists. exact W4. }
  destruct W as (h & W). destruct (a_step (demo_geo 10) (demo_geo 10) (demo_geo 1) pair1 h [0; 1]%nat (fun _ _ => 0%N) (Some 5%nat) W (demo_env 1)) as (hits & St).
  - vm_compute. tauto.
  - vm_compute. tauto.
  - discriminate.
  - intros th [= <-]. reflexivity.
  - exists h, (fun _ _ => 0%N), hits. destruct (step_goes_on _ _ _ _ _ _ _ 1%nat (fun _ => true) _ _ W St) as (s' & l & E & W'). exists s'.
    assert (Wt : watched pair1 0%nat 1%nat). { split; [vm_compute; reflexivity|]. split; [vm_compute; reflexivity|]. split; [discriminate|]. left. intros [D|D]; vm_compute in D; [discriminate D|now apply D]. }
    assert (M : may_touch pair1 (demo_geo 1) 0%nat 1%nat). { split; [|vm_compute; reflexivity]. split; [vm_compute; discriminate|]. intros c D. vm_compute in D. discriminate D. }
    repeat (split; [assumption|]). apply (C122_circles (demo_geo 10) pair1 h (demo_geo 10) (demo_geo 1) _ _ _ _ _ _ s' 0%nat 1%nat (mkV 0 0) 1 (mkV 1 0) 1 W St E Wt M).
    + split; [lra|]. exists (mkV 0 0), (mkT 1 0 0 1 0 0). unfold circle_cache. rewrite id_point. repeat split.
    + split; [lra|]. exists (mkV 1 0), (mkT 1 0 0 1 0 0). unfold circle_cache. rewrite id_point. repeat split.
    + unfold dist, dist2. cbn [vx vy]. replace ((0 - 1) * (0 - 1) + (0 - 0) * (0 - 0)) with 1 by ring. rewrite sqrt_1. lra.
Qed.
Print Assumptions C122_steps_run. Print Assumptions C122_contacts. Print Assumptions C122_overlap_is_seen. Print Assumptions C122_circles. Print Assumptions C122_circle_segment.
