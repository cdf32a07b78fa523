(** Segment queries of a space of discs, thin segments and thin convex polygons. *)
From Coq Require Import Reals ZArith Bool List Arith Lia Lra Permutation.
From Verif Require Import Num Spec SpecShapes SpecIndex SpecQuery.
From Verif.Model Require Import Vector BB BBTree Transform Shapes Handlers Collision Query.
From Verif.Proofs Require Import RTac Util BBOrder BBTreeInv BBTreePairs BBTreeHist BBTreeTop Geom ShapePf ShapePf2 PolyPf PolyPf2 SegQPf QueryPf QueryGeo QuerySeg.
Import ListNotations.
Local Open Scope R_scope.
Lemma dist_same p : dist p p = 0.
Proof. unfold dist, dist2. replace (_ + _) with 0 by ring. now rewrite sqrt_0. Qed.
Lemma seg_point0 a b : seg_point a b 0 = a.
Proof. destruct a. apply vec_eq; unfold seg_point; cbn; ring. Qed.
Lemma exact_box a b s x S : exact a b s x S -> forall p, S p -> in_box x p.
Proof.
  intros E p Sp. destruct E as [c r t R0|u v t NE Rt Ta Tb|vs t CV Rt NP IR].
  - now apply circle_box.
  - destruct Sp as (k & K & ->). apply (seg_box (new_segment u v 0) t (seg_point u v k)); [exists k; auto|]. cbn [new_segment sg_r]. replace (t_point t (seg_point u v k)) with (seg_point (t_point t u) (t_point t v) k) by (apply vec_eq; unfold seg_point, t_point; unR; cbn [vx vy]; ring). rewrite dist_same. lra.
  - apply (region_near_box vs 0 t p p); auto. rewrite dist_same. lra.
Qed.
Lemma exact_first a b s x S : a <> b -> exact a b s x S -> let i := segment_query s a b 0 in if si_hit i then first_hit S a b (si_alpha i) else no_hit S a b.
Proof.
  intros NE E. destruct E as [c r t R0|u v t NU Rt Ta Tb|vs t CV Rt NP IR]; cbv zeta; unfold segment_query.
  - cbn [point_query circle_point_query pi_dist]. rewrite vlen_norm. change (norm (vsub a (t_point t c))) with (dist a (t_point t c)). unR. destruct (Rleb _ _) eqn:L; rbool; cbn [si_hit si_alpha].
    + split; [lra|]. split; [rewrite seg_point0; lra|intros; lra].
    + cbn [class_segment_query]. destruct (circle_sq (t_point t c) r 0 a b (blank b)) as [(N & ->)|(k & Fh & ->)]; try lra; auto; cbn [blank si_hit si_alpha].
      * intros s S0 X. apply (N s S0). unfold disc. lra.
      * destruct Fh as (K & O & M). split; [exact K|]. unfold disc in *. split; [lra|]. intros s S0 X. apply M; auto. lra.
  - set (core := on_segment (t_point t u) (t_point t v)). assert (NC : ~ core a) by (intros (s & S & ->); apply Ta; unfold turn, seg_point; cbn [vx vy]; ring).
    set (s := fst _). destruct (seg_cache_pts (new_segment u v 0) t) as (E1 & E2 & E3). fold s in E1, E2, E3. cbn [new_segment sg_a sg_b sg_r] in E1, E2, E3.
    assert (D : 0 < pi_dist (point_query (Segment s) a)). { cbn [point_query]. unfold seg_point_query. cbn [pi_dist]. rewrite E1, E2, E3, vlen_norm. set (k := closest_point_on_segment a _ _). change (norm (vsub a k)) with (dist a k). assert (K : core k) by (apply on_seg_flip; apply closest_point_on). unR. assert (0 < dist a k) by (apply dist_pos; intros Q; apply NC; rewrite Q; exact K). lra. }
    unR. rewrite (proj2 (Rleb_false _ 0)) by lra. cbn [class_segment_query]. assert (SN := seg_normal_cache u v 0 t Rt). fold s in SN. destruct (thin_seg s a b (blank b) E3 SN) as [(NH & ->)|(k & FH & _ & HH & HA & _)]; rewrite ?E1, ?E2 in *; auto. rewrite HH, HA. exact FH.
  - set (ws := map (t_point t) vs) in *. assert (NV : vs <> []) by (intros ->; destruct CV as [L _]; cbn in L; lia).
    assert (MX : exists q, boundary ws q /\ dist a q < MaxFloat64). { destruct IR as (q & Iq & D). exists (pl_v0 q). split; [|exact D]. destruct (Forall2_in_r _ _ _ (planes_ok t vs 0 NV Rt) q Iq) as ([y z] & Ie & Pq & _). exists y, z. split; [exact Ie|]. rewrite Pq. apply on_seg_r. }
    change (pi_dist (point_query (Poly ?p 0) a)) with (pi_dist (poly_point_query p 0 a)). destruct (poly_pq vs 0 t a CV Rt (Rle_refl 0) MX) as (d & DB & IN & OUT & _). fold ws in DB, IN, OUT.
    assert (DD : 0 <= d) by (destruct DB as ((q & _ & <-) & _); apply dist_nonneg). unR.
    destruct (classic_ex (ring ws) a) as [(y & z & Iyz & N)|Ra].
    + assert (NR : ~ region ws a) by (intros Q; pose proof (Q y z Iyz); lra). destruct (OUT NR) as (((w & Ww & WD) & _) & PDE). rewrite PDE. assert (D0 : 0 < d) by (rewrite <- WD; apply dist_pos; intros ->; contradiction).
      rewrite (proj2 (Rleb_false (d - 0) 0)) by lra. cbn [class_segment_query]. destruct (thin_poly ws _ a b (blank b) (convex_rigid t vs Rt CV) (planes_ok t vs 0 NV Rt) NR NP) as [(NH & ->)|(s & y' & z' & q & FH & _ & _ & _ & HH & HA & _)]; [exact NH|]. rewrite HH, HA. exact FH.
    + assert (L : pi_dist (poly_point_query (fst (poly_cache (poly_planes vs) 0 t)) 0 a) <= 0) by (rewrite (IN Ra); lra). rewrite (proj2 (Rleb_true _ 0)) by exact L. cbn [si_hit si_alpha]. split; [lra|]. split; [rewrite seg_point0; exact Ra|intros; lra].
Qed.
(** the space-level answer in terms of the points of the shapes *)
Section World.
Variables (W : nat -> QShape R) (a b : RV) (f : Filter) (body : nat -> RV -> Prop) (e0 : env R) (h : list (op R)).
Hypothesis NE : a <> b.
Hypothesis Hv : valid e0 h.
Hypothesis U : up_to_date e0 h W.
Hypothesis X : forall id, In id (all_members h) -> exact a b (class_of (W id)) (box_of (W id)) (body id).
Notation sq id := (segment_query (class_of (W id)) a b 0).
Lemma mem_in d id : In id (members d h) -> In id (all_members h).
Proof. intros I. unfold all_members. apply in_app_iff. destruct d; auto. Qed.
Lemma world_hit id : In id (all_members h) -> si_hit (sq id) = true -> first_hit (body id) a b (si_alpha (sq id)) /\ in_box (box_of (W id)) (seg_point a b (si_alpha (sq id))).
Proof. intros I Hh. pose proof (exact_first a b _ _ _ NE (X id I)) as Q. cbv zeta in Q. rewrite Hh in Q. split; [exact Q|]. apply (exact_box _ _ _ _ _ (X id I)). apply Q. Qed.
Lemma world_miss id : In id (all_members h) -> si_hit (sq id) = false -> no_hit (body id) a b.
Proof. intros I Hh. pose proof (exact_first a b _ _ _ NE (X id I)) as Q. cbv zeta in Q. rewrite Hh in Q. exact Q. Qed.
Theorem first_world : let out := segment_query_first W (run e0 h) a b 0 f in
  match fst out with
  | None => forall id s, In id (all_members h) -> visible f (W id) -> 0 <= s < 1 -> ~ body id (seg_point a b s)
  | Some i => In i (all_members h) /\ visible f (W i) /\ first_hit (body i) a b (si_alpha (snd out)) /\ snd out = sq i /\
      forall id s, In id (all_members h) -> visible f (W id) -> 0 <= s <= 1 -> body id (seg_point a b s) -> si_alpha (snd out) <= s
  end.
Proof.
  cbv zeta. destruct (first_ok W a b 0 f e0 h Hv) as [A B].
  { intros d id x I E [_ Hh]. rewrite (U d id I) in E. injection E as <-. destruct (world_hit id (mem_in d id I) Hh) as [(S & _ & _) Q]. auto. }
  assert (M : forall id, In id (members false h ++ members true h) <-> In id (all_members h)) by (intros id; unfold all_members; rewrite !in_app_iff; tauto).
  assert (LE : forall id s, In id (all_members h) -> visible f (W id) -> 0 <= s <= 1 -> body id (seg_point a b s) -> si_alpha (snd (segment_query_first W (run e0 h) a b 0 f)) <= s).
  { intros id s I Vi S Bs. destruct (si_hit (sq id)) eqn:Hh; [|exfalso; exact (world_miss id I Hh s S Bs)]. pose proof (B id (proj2 (M id) I) (conj Vi Hh)). destruct (world_hit id I Hh) as [(_ & _ & Q) _]. specialize (Q s S Bs). lra. }
  destruct A as [A|(i & I & [Vi Hh] & A & L)].
  - assert (E1 : fst (segment_query_first W (run e0 h) a b 0 f) = None) by (rewrite A; reflexivity). rewrite E1. intros id s I Vi S Bs. assert (Q : si_alpha (snd (segment_query_first W (run e0 h) a b 0 f)) = 1) by (rewrite A; reflexivity). pose proof (LE id s I Vi ltac:(lra) Bs). lra.
  - apply M in I. assert (E1 : fst (segment_query_first W (run e0 h) a b 0 f) = Some i) by (rewrite A; reflexivity). assert (E2 : snd (segment_query_first W (run e0 h) a b 0 f) = sq i) by (rewrite A; reflexivity). rewrite E1. split; [exact I|]. split; [exact Vi|]. split; [rewrite E2; apply (world_hit i I Hh)|]. split; [exact E2|]. exact LE.
Qed.
Theorem all_world : let calls := segment_query_all W (run e0 h) a b 0 f in NoDup (map fst calls) /\
  (forall id i, In (id, i) calls -> In id (all_members h) /\ accepts f (W id) /\ i = sq id /\ first_hit (body id) a b (si_alpha i)) /\
  (forall id s, In id (all_members h) -> accepts f (W id) -> 0 <= s < 1 -> body id (seg_point a b s) -> In id (map fst calls)).
Proof.
  cbv zeta. destruct (all_ok W a b 0 f e0 h Hv) as (N & S & C).
  { intros d id x I E Ac Hh. rewrite (U d id I) in E. injection E as <-. destruct (world_hit id (mem_in d id I) Hh) as [(K & _ & _) Q]. auto. }
  split; [exact N|]. split.
  - intros id i I. destruct (S id i I) as (M & Ac & Hh & ->). split; [exact M|]. split; [exact Ac|]. split; [reflexivity|]. apply (world_hit id M Hh).
  - intros id s I Ac K Bs. destruct (si_hit (sq id)) eqn:Hh; [|exfalso; exact (world_miss id I Hh s ltac:(lra) Bs)]. destruct (world_hit id I Hh) as [(_ & _ & Q) _]. specialize (Q s ltac:(lra) Bs). apply in_map_iff. exists (id, sq id). split; [reflexivity|]. apply C; auto. lra.
Qed.
End World.
