(** Contacts (reals): circles exactly, and every contact point is a point of its shape. *)
From Coq Require Import Reals ZArith NArith Bool List Lra Lia.
From Verif Require Import Num Spec SpecShapes SpecCollide.
From Verif.Model Require Import Vector BB Transform Shapes Handlers Collision.
From Verif.Proofs Require Import RTac Geom ShapePf ShapePf2 GjkPf GjkPf2 GjkPf3.
Import ListNotations.
Local Open Scope R_scope.

Lemma offset_dist (p n : RV) k : dist (vadd p (vmult n k)) p = Rabs k * norm n.
Proof.
  rewrite dist_norm. replace (vminus (vadd p (vmult n k)) p) with (vmult n k) by (apply vec_eq; unfold vminus, vadd, vmult; unR; cbn [vx vy]; ring).
  unfold norm. replace (norm2 (vmult n k)) with (k * k * norm2 n) by (unfold norm2, vmult; unR; cbn [vx vy]; ring).
  rewrite sqrt_mult by (try apply sq_pos; apply norm2_nonneg). f_equal. apply sqrt_Rsqr_abs.
Qed.
Lemma offset_near (S : RV -> Prop) (p n : RV) k r : S p -> norm n <= 1 -> Rabs k <= r -> near S r (vadd p (vmult n k)).
Proof.
  intros Hp Hn Hk. exists p. split; auto. rewrite offset_dist. pose proof (Rabs_pos k). pose proof (norm_nonneg n).
  assert (Rabs k * norm n <= Rabs k * 1) by (apply Rmult_le_compat_l; lra). lra.
Qed.
Lemma unit_norm n : unit n -> norm n = 1.
Proof. unfold unit, norm. intros ->. apply sqrt_1. Qed.
Lemma unit_scale (u : RV) : norm u <> 0 -> unit (vmult u (1 / norm u)).
Proof.
  intros Hn. unfold unit. replace (norm2 (vmult u (1 / norm u))) with (norm2 u / (norm u * norm u)) by (unfold norm2, vmult; unR; cbn [vx vy]; field; auto).
  rewrite norm_sq. field. intros E. apply Hn. unfold norm. rewrite E. apply sqrt_0.
Qed.
(** ** circle against circle *)
Definition axis_circle (c1 c2 : RV) : RV := if Req_EM_T (dist c1 c2) 0 then mkV 1 0 else vscale (1 / dist c1 c2) (vminus c2 c1).
Lemma axis_circle_unit c1 c2 : unit (axis_circle c1 c2).
Proof.
  unfold axis_circle. destruct (Req_EM_T (dist c1 c2) 0) as [E|E]; [unfold unit, norm2; cbn [vx vy]; ring|].
  rewrite dist_uw in *. pose proof (unit_scale _ E) as U. replace (vscale (1 / norm (vminus c2 c1)) (vminus c2 c1)) with (vmult (vminus c2 c1) (1 / norm (vminus c2 c1))) by (apply vec_eq; unfold vmult, vscale; unR; cbn [vx vy]; ring). exact U.
Qed.
Lemma sq_lt_iff x y : 0 <= x -> 0 <= y -> (x * x < y * y <-> x < y).
Proof. intros. split; intros. - destruct (Rlt_le_dec x y); auto. assert (y * y <= x * x) by (apply Rmult_le_compat; lra). lra. - apply Rmult_le_0_lt_compat; lra. Qed.
Lemma circle_circle c1 r1 c2 r2 info : 0 <= r1 + r2 -> circle_to_circle c1 r1 c2 r2 info =
  if Rlt_dec (dist c1 c2) (r1 + r2) then push_contact (set_n info (axis_circle c1 c2)) (vplus c1 (vscale r1 (axis_circle c1 c2))) (vplus c2 (vscale (- r2) (axis_circle c1 c2))) 0 else Some info.
Proof.
  intros Hr. unfold circle_to_circle. cbv zeta.
  assert (E : vlensq (vsub c2 c1) = dist c1 c2 * dist c1 c2) by (rewrite (dist_uw c1 c2), norm_sq, vlensq_norm2; reflexivity).
  rewrite E. pose proof (dist_nonneg c1 c2) as Dn. unR. rewrite sqrt_square by assumption.
  assert (EA : (if negb (Reqb (dist c1 c2) 0) then vmult (vsub c2 c1) (1 / dist c1 c2) else mkV 1 0) = axis_circle c1 c2).
  { unfold axis_circle, Reqb. destruct (Req_EM_T (dist c1 c2) 0); cbn [negb]; [reflexivity|]. apply vec_eq; unfold vmult, vscale, vsub, vminus; unR; cbn [vx vy]; ring. }
  rewrite EA.
  destruct (Rltb_spec (dist c1 c2 * dist c1 c2) ((r1 + r2) * (r1 + r2))) as [L|L], (Rlt_dec (dist c1 c2) (r1 + r2)) as [L2|L2]; auto; try (rewrite sq_lt_iff in L by assumption; contradiction).
  f_equal; apply vec_eq; unfold vadd, vmult, vplus, vscale; unR; cbn [vx vy]; ring.
Qed.
(** ** circle against segment *)
Lemma closest_seg (c ta tb : RV) : closest_point_on_segment c tb ta = vadd ta (vmult (vsub tb ta) (nclamp01 (vdot (vsub tb ta) (vsub c ta) / vlensq (vsub tb ta))%num)).
Proof. reflexivity. Qed.
Lemma on_seg_sym a b q : on_segment a b q -> on_segment b a q.
Proof. intros (s & Hs & ->). exists (1 - s). split; [lra|]. apply vec_eq; unfold seg_point; cbn [vx vy]; ring. Qed.
Lemma seg_distance c ta tb : ta <> tb -> distance_to (on_segment ta tb) c (dist c (closest_point_on_segment c tb ta)).
Proof.
  intros Hne. split.
  - exists (closest_point_on_segment c tb ta). split; auto. apply closest_point_on.
  - intros q Hq. unfold dist. apply sqrt_le_1_alt. apply closest_point_nearest; auto. now apply on_seg_sym.
Qed.
Lemma tangent0 (n rot : RV) : tangent n rot = 0.
Proof. unfold tangent, vdot, vrotate, vzero. unR. cbn [vx vy]. ring. Qed.
Definition axis_seg (c q tn : RV) : RV := if Req_EM_T (dist c q) 0 then tn else vscale (1 / dist c q) (vminus q c).
Lemma circle_segment c r (g : Seg R) rot info : 0 <= r + sg_r g -> let q := closest_point_on_segment c (sg_tb g) (sg_ta g) in
  circle_to_segment c r g rot info =
  if Rlt_dec (dist c q) (r + sg_r g) then push_contact (set_n info (axis_seg c q (sg_tn g))) (vplus c (vscale r (axis_seg c q (sg_tn g)))) (vplus q (vscale (- sg_r g) (axis_seg c q (sg_tn g)))) 0 else Some info.
Proof.
  intros Hr q. unfold circle_to_segment. cbv zeta. rewrite <- closest_seg. fold q.
  assert (E : vlensq (vsub q c) = dist c q * dist c q) by (rewrite (dist_uw c q), norm_sq, vlensq_norm2; reflexivity).
  rewrite E. pose proof (dist_nonneg c q) as Dn. rewrite !tangent0. unR. rewrite sqrt_square by assumption.
  assert (EA : (if negb (Reqb (dist c q) 0) then vmult (vsub q c) (1 / dist c q) else sg_tn g) = axis_seg c q (sg_tn g)).
  { unfold axis_seg, Reqb. destruct (Req_EM_T (dist c q) 0); cbn [negb]; [reflexivity|]. apply vec_eq; unfold vmult, vscale, vsub, vminus; unR; cbn [vx vy]; ring. }
  rewrite EA. replace (Rleb 0 0) with true by (symmetry; apply Rleb_true; lra). rewrite !orb_true_r. cbn [andb].
  destruct (Rltb_spec (dist c q * dist c q) ((r + sg_r g) * (r + sg_r g))) as [L|L], (Rlt_dec (dist c q) (r + sg_r g)) as [L2|L2]; auto; try (rewrite sq_lt_iff in L by assumption; contradiction).
  f_equal; apply vec_eq; unfold vadd, vmult, vplus, vscale; unR; cbn [vx vy]; ring.
Qed.

(** ** every contact point belongs to its shape *)
Definition inside (A B : Shape R) (c : CContact R) : Prop := covers A (cc_r1 c) /\ covers B (cc_r2 c).
Lemma push_inside A B info p1 p2 h info' : Forall (inside A B) (ci_arr info) -> covers A p1 -> covers B p2 -> push_contact info p1 p2 h = Some info' -> Forall (inside A B) (ci_arr info').
Proof.
  intros Hi H1 H2. unfold push_contact. destruct (_ <? 2)%nat; [|discriminate]. intros [= <-]. cbn [ci_arr]. apply Forall_app. split; auto. repeat constructor; auto.
Qed.
Lemma edge_points vs (a b n : RV) k t : In a vs -> In b vs -> norm n <= 1 -> near (in_hull vs) (Rabs k) (vadd (vmult n k) (vlerp a b (nclamp01 t))).
Proof.
  intros Ha Hb Hn. replace (vadd (vmult n k) (vlerp a b (nclamp01 t))) with (vadd (seg_point a b (nclamp01 t)) (vmult n k)) by (apply vec_eq; unfold vadd, vmult, vlerp, seg_point, vadd, vmult; unR; cbn [vx vy]; ring).
  apply offset_near; [|exact Hn|lra]. eapply hull_between; [apply hull_vertex, Ha|apply hull_vertex, Hb|]. exists (nclamp01 t). split; auto.
  rewrite clamp01R. unfold Rmin, Rmax. repeat destruct (Rle_dec _ _); lra.
Qed.
Lemma contact_inside A B e1 e2 pts info info' : In (ce_a e1) (corners A) -> In (ce_b e1) (corners A) -> In (ce_a e2) (corners B) -> In (ce_b e2) (corners B) ->
  ce_r e1 = radius A -> ce_r e2 = radius B -> 0 <= radius A -> 0 <= radius B -> norm (cp_n pts) <= 1 ->
  Forall (inside A B) (ci_arr info) -> contact_points e1 e2 pts info = Some info' -> Forall (inside A B) (ci_arr info').
Proof.
  intros A1 A2 B1 B2 RA RB PA PB Hn Hi. unfold contact_points. cbv zeta. rewrite RA, RB.
  destruct (nltb _ _); [intros [= <-]; exact Hi|].
  assert (XA : forall t, covers A (vadd (vmult (cp_n pts) (radius A)) (vlerp (ce_a e1) (ce_b e1) (nclamp01 t)))).
  { intros t. pose proof (edge_points (corners A) (ce_a e1) (ce_b e1) (cp_n pts) (radius A) t A1 A2 Hn) as X. rewrite Rabs_pos_eq in X by assumption. exact X. }
  assert (XB : forall t, covers B (vadd (vmult (cp_n pts) (- radius B)) (vlerp (ce_a e2) (ce_b e2) (nclamp01 t)))).
  { intros t. pose proof (edge_points (corners B) (ce_a e2) (ce_b e2) (cp_n pts) (- radius B) t B1 B2 Hn) as X. rewrite Rabs_Ropp, Rabs_pos_eq in X by assumption. exact X. }
  match goal with |- match ?x with _ => _ end = _ -> _ => destruct x as [info1|] eqn:E1 end; [|discriminate].
  assert (H1 : Forall (inside A B) (ci_arr info1)).
  { revert E1. match goal with |- context [if ?x then _ else _] => destruct x end; [|intros [= <-]; exact Hi]. apply push_inside; [exact Hi|apply XA|apply XB]. }
  match goal with |- context [if ?x then _ else _] => destruct x end; [|intros [= <-]; exact H1]. apply push_inside; [exact H1|apply XA|apply XB].
Qed.
Lemma gjk_epa_from A B : regular A -> regular B -> forall fuel hull it pts fl, hull <> [] -> (forall v, In v hull -> good A B v) ->
  epa_recurse fuel A B hull it = Some (pts, fl) -> exists v0 v1, good A B v0 /\ good A B v1 /\ pts = closest_points v0 v1.
Proof.
  intros RA RB. induction fuel as [|fuel IH]; intros hull it pts fl Hn Hg; [discriminate|]. cbn [epa_recurse].
  set (d0 := mkMk vzero vzero vzero 0). set (mini := epa_min hull d0). set (rot := skipn (S mini) hull ++ firstn (S mini) hull).
  assert (Hmi : (mini < length hull)%nat) by now apply mini_lt.
  assert (Hr : forall v, In v rot -> In v hull) by (intros v [Hv|Hv]%in_app_or; [eapply in_skipn|eapply in_firstn]; exact Hv).
  assert (Hrn : rot <> []). { intros E. apply (f_equal (@length _)) in E. unfold rot in E. rewrite app_length, firstn_length_le in E by lia. cbn in E. lia. }
  match goal with |- (if ?x && _ then _ else _) = _ -> _ => destruct x eqn:E end; cbn [andb negb].
  - destruct (it <? maxEpa)%nat.
    + apply IH.
      * intros E2. match type of E2 with epa_rebuild ?p _ _ = _ => pose proof (rebuild_in p p rot [p] (or_introl eq_refl)) as X end. rewrite E2 in X. destruct X.
      * intros v. apply rebuild_forall; [intros w [<-|[]]; now apply support_good|intros w Hw; apply Hg, Hr, Hw].
    + intros [= <- _]. exists (nth mini hull d0), (hd d0 rot). split; [apply Hg, nth_In, Hmi|]. split; auto. apply Hg, Hr. destruct rot; [congruence|now left].
  - intros [= <- _]. exists (nth mini hull d0), (hd d0 rot). split; [apply Hg, nth_In, Hmi|]. split; auto. apply Hg, Hr. destruct rot; [congruence|now left].
Qed.
Lemma gjk_rec_from A B : regular A -> regular B -> forall fuel v0 v1 it pts fl, good A B v0 -> good A B v1 ->
  gjk_recurse fuel A B v0 v1 it = Some (pts, fl) -> exists v0 v1, good A B v0 /\ good A B v1 /\ pts = closest_points v0 v1.
Proof.
  intros RA RB. induction fuel as [|fuel IH]; intros v0 v1 it pts fl G0 G1; [discriminate|]. cbn [gjk_recurse].
  destruct (maxGjk <? it)%nat; [intros [= <- _]; eauto|].
  match goal with |- (if ?x then _ else _) = _ -> _ => destruct x end; [now apply IH|].
  match goal with |- context [support A B ?n0] => set (p := support A B n0) end. assert (Gp : good A B p) by now apply support_good.
  match goal with |- (if ?x then _ else _) = _ -> _ => destruct x end; [unfold epa; apply gjk_epa_from; auto; [discriminate|intros v [<-|[<-|[<-|[]]]]; auto]|].
  match goal with |- (if ?x then _ else _) = _ -> _ => destruct x end; [intros [= <- _]; eauto|].
  match goal with |- (if ?x then _ else _) = _ -> _ => destruct x end; apply IH; auto.
Qed.
Lemma gjk_from (a b : CShape R) id pts fl : regular (cs_class a) -> regular (cs_class b) -> gjk a b id = Some (pts, fl) ->
  core (cs_class a) (cp_a pts) /\ core (cs_class b) (cp_b pts) /\ norm (cp_n pts) <= 1.
Proof.
  intros RA RB. unfold gjk. destruct (start_good a b id RA RB) as [G0 G1]. destruct (gjk_start a b id) as [s0 s1]. cbn [fst snd] in *. intros Hg.
  apply gjk_rec_from in Hg as (v0 & v1 & H0 & H1 & ->); auto. destruct (closest_sep _ _ RA RB v0 v1 H0 H1) as (Ca & Cb & _). split; auto. split; auto.
  pose proof (cp_unfold v0 v1) as HC. cbv zeta in HC. destruct HC as [(_ & -> & _)|(_ & _ & -> & _)]; [apply edge_norm|].
  match goal with |- norm (vscale (1 / (norm ?q + tol)) ?q) <= 1 => set (p := q) end. pose proof (norm_nonneg p). pose proof tol_pos.
  rewrite norm_scale by (apply Rlt_le, Rdiv_lt_0_compat; lra). apply Rmult_le_reg_r with (norm p + tol); [lra|]. field_simplify; lra.
Qed.
Lemma edge_seg_in (g : Seg R) h n : let e := edge_for_segment g h n in In (ce_a e) [sg_ta g; sg_tb g] /\ In (ce_b e) [sg_ta g; sg_tb g] /\ ce_r e = sg_r g.
Proof. unfold edge_for_segment. destruct (nltb _ _); cbn; auto. Qed.
Lemma plane_in (ps : list (Plane R)) i : (i < length ps)%nat -> In (pl_v0 (plane_at ps i)) (map pl_v0 ps).
Proof. intros. apply in_map, nth_In. assumption. Qed.
Lemma edge_poly_in (ps : list (Plane R)) r h n : ps <> [] -> let e := edge_for_poly ps r h n in In (ce_a e) (map pl_v0 ps) /\ In (ce_b e) (map pl_v0 ps) /\ ce_r e = r.
Proof.
  intros Hn. assert (L : (length ps <> 0)%nat) by (destruct ps; [congruence|cbn; lia]). pose proof (proj1 (psi_spec ps n Hn)) as Hi.
  unfold edge_for_poly. cbv zeta. destruct (nltb _ _); cbn [ce_a ce_b ce_r]; repeat split; auto; apply plane_in; auto; now apply Nat.mod_upper_bound.
Qed.
Lemma axis_seg_norm c q tn : norm tn <= 1 -> norm (axis_seg c q tn) <= 1.
Proof.
  intros Ht. unfold axis_seg. destruct (Req_EM_T (dist c q) 0) as [E|E]; auto. rewrite dist_uw in *. pose proof (norm_nonneg (vminus q c)).
  rewrite norm_scale by (apply Rlt_le, Rdiv_lt_0_compat; lra). right. field. exact E.
Qed.
Lemma plus_offset (p n : RV) k : vplus p (vscale k n) = vadd p (vmult n k).
Proof. apply vec_eq; unfold vplus, vscale, vadd, vmult; unR; cbn [vx vy]; ring. Qed.
Lemma call_inside f (a b : CShape R) info info' : regular (cs_class a) -> regular (cs_class b) -> sound (cs_class a) -> sound (cs_class b) ->
  ci_arr info = [] -> call f a b info = Some info' -> Forall (inside (cs_class a) (cs_class b)) (ci_arr info').
Proof.
  intros RA RB SA SB E. assert (F0 : Forall (inside (cs_class a) (cs_class b)) (ci_arr info)) by (rewrite E; constructor).
  destruct SA as [PA NA], SB as [PB NB]. pose proof RA as (KA & _). pose proof RB as (KB & _).
  unfold call. destruct f, (cs_class a) as [c1 r1|g1|ps1 r1] eqn:Ea, (cs_class b) as [c2 r2|g2|ps2 r2] eqn:Eb; try discriminate; cbn [radius corners] in *.
  - rewrite circle_circle by lra. destruct (Rlt_dec _ _); [|intros [= <-]; exact F0]. rewrite !plus_offset.
    pose proof (unit_norm _ (axis_circle_unit c1 c2)). apply push_inside; auto; (apply offset_near; [apply hull_vertex; now left|lra|rewrite ?Rabs_Ropp, Rabs_pos_eq by assumption; cbn; lra]).
  - rewrite circle_segment by lra. destruct (Rlt_dec _ _); [|intros [= <-]; exact F0]. rewrite !plus_offset.
    set (q := closest_point_on_segment c1 (sg_tb g2) (sg_ta g2)). pose proof (axis_seg_norm c1 q (sg_tn g2) NB).
    apply push_inside; auto; (apply offset_near; [|assumption|rewrite ?Rabs_Ropp, Rabs_pos_eq by assumption; cbn; lra]).
    + apply hull_vertex. now left.
    + apply (hull_between _ (sg_ta g2) (sg_tb g2)); [apply hull_vertex; now left|apply hull_vertex; right; now left|apply closest_point_on].
  - unfold segment_to_segment. destruct (gjk a b (ci_id info)) as [[pts fl]|] eqn:G; [|discriminate].
    rewrite <- Ea in RA. rewrite <- Eb in RB. destruct (gjk_from a b _ pts fl RA RB G) as (Ca & Cb & Nn). destruct (nltb _ _); [intros [= <-]; exact F0|].
    match goal with |- (if ?x then _ else _) = _ -> _ => destruct x end; [|intros [= <-]; exact F0].
    destruct (edge_seg_in g1 (cs_hash a) (cp_n pts)) as (X1 & X2 & X3), (edge_seg_in g2 (cs_hash b) (vneg (cp_n pts))) as (Y1 & Y2 & Y3).
    eapply (contact_inside (Segment g1) (Segment g2)); cbn [radius corners]; try eassumption.
  - unfold circle_to_poly. destruct (gjk a b (ci_id info)) as [[pts fl]|] eqn:G; [|discriminate].
    assert (RA' := RA). assert (RB' := RB). rewrite <- Ea in RA'. rewrite <- Eb in RB'. destruct (gjk_from a b _ pts fl RA' RB' G) as (Ca & Cb & Nn). rewrite Ea in Ca. rewrite Eb in Cb.
    match goal with |- (if ?x then _ else _) = _ -> _ => destruct x end; [|intros [= <-]; exact F0].
    apply push_inside; [exact F0| |]; apply offset_near; auto; rewrite Rabs_pos_eq by assumption; cbn; lra.
  - unfold segment_to_poly. destruct (gjk a b (ci_id info)) as [[pts fl]|] eqn:G; [|discriminate].
    assert (RA' := RA). assert (RB' := RB). rewrite <- Ea in RA'. rewrite <- Eb in RB'. destruct (gjk_from a b _ pts fl RA' RB' G) as (Ca & Cb & Nn).
    match goal with |- (if ?x then _ else _) = _ -> _ => destruct x end; [|intros [= <-]; exact F0].
    assert (Pn : ps2 <> []) by (intros ->; apply KB; reflexivity).
    destruct (edge_seg_in g1 (cs_hash a) (cp_n pts)) as (X1 & X2 & X3), (edge_poly_in ps2 r2 (cs_hash b) (vneg (cp_n pts)) Pn) as (Y1 & Y2 & Y3).
    eapply (contact_inside (Segment g1) (Poly ps2 r2)); cbn [radius corners]; try eassumption.
  - unfold poly_to_poly. destruct (gjk a b (ci_id info)) as [[pts fl]|] eqn:G; [|discriminate].
    assert (RA' := RA). assert (RB' := RB). rewrite <- Ea in RA'. rewrite <- Eb in RB'. destruct (gjk_from a b _ pts fl RA' RB' G) as (Ca & Cb & Nn).
    match goal with |- (if ?x then _ else _) = _ -> _ => destruct x end; [|intros [= <-]; exact F0].
    assert (Pn : ps2 <> []) by (intros ->; apply KB; reflexivity). assert (Pm : ps1 <> []) by (intros ->; apply KA; reflexivity).
    destruct (edge_poly_in ps1 r1 (cs_hash a) (cp_n pts) Pm) as (X1 & X2 & X3), (edge_poly_in ps2 r2 (cs_hash b) (vneg (cp_n pts)) Pn) as (Y1 & Y2 & Y3).
    eapply (contact_inside (Poly ps1 r1) (Poly ps2 r2)); cbn [radius corners]; try eassumption.
Qed.
Lemma shapes_inside (a b : CShape R) n pts : regular (cs_class a) -> regular (cs_class b) -> sound (cs_class a) -> sound (cs_class b) ->
  shapes_collide a b = Some (n, pts) -> Forall (fun c => covers (cs_class a) (pt_a c) /\ covers (cs_class b) (pt_b c)) pts.
Proof.
  intros RA RB SA SB. unfold shapes_collide, collide. destruct (order (cs_class b) <? order (cs_class a))%nat.
  - destruct (nth_error builtin _) as [f|]; [|discriminate]. destruct (call f b a _) as [info|] eqn:E; [|discriminate]. cbn [option_map]. intros [= <- <-].
    apply call_inside in E; auto. apply Forall_map. eapply Forall_impl; [|exact E]. intros c [H1 H2]. cbn. auto.
  - destruct (nth_error builtin _) as [f|]; [|discriminate]. destruct (call f a b _) as [info|] eqn:E; [|discriminate]. cbn [option_map]. intros [= <- <-].
    apply call_inside in E; auto. apply Forall_map. eapply Forall_impl; [|exact E]. intros c [H1 H2]. cbn. auto.
Qed.

(** ** reported depths (not circle against polygon) *)
Definition deep (n : RV) (c : CContact R) : Prop := inner (vminus (cc_r2 c) (cc_r1 c)) n <= 0.
Lemma push_deep info p1 p2 h info' : Forall (deep (ci_n info)) (ci_arr info) -> inner (vminus p2 p1) (ci_n info) <= 0 -> push_contact info p1 p2 h = Some info' ->
  Forall (deep (ci_n info')) (ci_arr info').
Proof.
  intros Hi Hd. unfold push_contact. destruct (_ <? 2)%nat; [|discriminate]. intros [= <-]. cbn [ci_arr ci_n]. apply Forall_app. split; auto.
Qed.
Lemma push_n info p1 p2 h (info' : CInfo R) : push_contact info p1 p2 h = Some info' -> ci_n info' = ci_n info.
Proof. unfold push_contact. destruct (_ <? 2)%nat; [|discriminate]. intros [= <-]. reflexivity. Qed.
Lemma contact_deep e1 e2 pts (info info' : CInfo R) : ci_arr info = [] -> contact_points e1 e2 pts info = Some info' -> Forall (deep (ci_n info')) (ci_arr info').
Proof.
  intros E. unfold contact_points. cbv zeta. destruct (nltb _ _); [intros [= <-]; rewrite E; constructor|].
  assert (F0 : Forall (deep (ci_n (set_n info (cp_n pts)))) (ci_arr (set_n info (cp_n pts)))) by (cbn [set_n ci_arr]; rewrite E; constructor).
  match goal with |- match (if nleb ?x _ then _ else _) with _ => _ end = _ -> _ => destruct (nleb x nzero) eqn:E1 end.
  - destruct (push_contact _ _ _ _) as [info1|] eqn:P1; [|discriminate]. pose proof (push_n _ _ _ _ _ P1) as En. cbn [ci_n set_n] in En.
    apply push_deep in P1; [|exact F0|apply Rleb_true in E1; exact E1].
    match goal with |- (if nleb ?x _ then _ else _) = _ -> _ => destruct (nleb x nzero) eqn:E2 end; [|intros [= <-]; exact P1].
    apply push_deep; [exact P1|]. rewrite En. apply Rleb_true in E2. exact E2.
  - match goal with |- (if nleb ?x _ then _ else _) = _ -> _ => destruct (nleb x nzero) eqn:E2 end; [|intros [= <-]; exact F0].
    apply push_deep; [exact F0|]. apply Rleb_true in E2. exact E2.
Qed.
Lemma offset_depth (p q n : RV) r s : inner (vminus (vplus q (vscale (- s) n)) (vplus p (vscale r n))) n = inner (vminus q p) n - (r + s) * norm2 n.
Proof. unfold inner, norm2, vminus, vplus, vscale. cbn [vx vy]. ring. Qed.
Lemma call_deep f (a b : CShape R) info info' : sound (cs_class a) -> sound (cs_class b) -> circle_poly a b = false ->
  ci_arr info = [] -> call f a b info = Some info' -> Forall (deep (ci_n info')) (ci_arr info').
Proof.
  intros SA SB NC E. unfold circle_poly in NC. destruct SA as [PA NA], SB as [PB NB].
  assert (X : forall i : N, ci_arr (set_id info i) = []) by (intros; exact E).
  unfold call. destruct f, (cs_class a) as [c1 r1|g1|ps1 r1] eqn:Ea, (cs_class b) as [c2 r2|g2|ps2 r2] eqn:Eb; try discriminate; cbn [radius] in *.
  - rewrite circle_circle by lra. destruct (Rlt_dec _ _) as [L|L]; [|intros [= <-]; rewrite E; constructor].
    apply push_deep; cbn [set_n ci_arr ci_n]; [rewrite E; constructor|]. rewrite offset_depth. pose proof (axis_circle_unit c1 c2) as U. unfold unit in U. rewrite U.
    assert (I : inner (vminus c2 c1) (axis_circle c1 c2) = dist c1 c2).
    { unfold axis_circle. destruct (Req_EM_T (dist c1 c2) 0) as [Z|Z].
      - rewrite Z. rewrite (dist_uw c1 c2) in Z. assert (Z2 : norm2 (vminus c2 c1) = 0) by (rewrite <- norm_sq, Z; ring). unfold norm2, vminus, inner in *. cbn [vx vy] in *. pose proof (sq_pos (vx c2 - vx c1)). pose proof (sq_pos (vy c2 - vy c1)).
        assert (Z3 : (vx c2 - vx c1) * (vx c2 - vx c1) = 0) by lra. apply Rmult_integral in Z3 as [Z3|Z3]; rewrite Z3; ring.
      - replace (inner (vminus c2 c1) (vscale (1 / dist c1 c2) (vminus c2 c1))) with (1 / dist c1 c2 * norm2 (vminus c2 c1)) by (unfold inner, norm2, vscale; cbn [vx vy]; ring).
        rewrite <- norm_sq, <- (dist_uw c1 c2). field. exact Z. }
    rewrite I. lra.
  - rewrite circle_segment by lra. set (q := closest_point_on_segment c1 (sg_tb g2) (sg_ta g2)). destruct (Rlt_dec _ _) as [L|L]; [|intros [= <-]; rewrite E; constructor].
    apply push_deep; cbn [set_n ci_arr ci_n]; [rewrite E; constructor|]. rewrite offset_depth. unfold axis_seg.
    destruct (Req_EM_T (dist c1 q) 0) as [Z|Z].
    + rewrite (dist_uw c1 q) in Z. assert (Z2 : norm2 (vminus q c1) = 0) by (rewrite <- norm_sq, Z; ring).
      pose proof (cauchy_schwarz2 (vminus q c1) (sg_tn g2)) as CS. rewrite Z2, Rmult_0_l in CS. pose proof (sq_pos (inner (vminus q c1) (sg_tn g2))).
      assert (Z3 : inner (vminus q c1) (sg_tn g2) = 0) by (assert (Z4 : inner (vminus q c1) (sg_tn g2) * inner (vminus q c1) (sg_tn g2) = 0) by lra; apply Rmult_integral in Z4 as [Z4|Z4]; exact Z4).
      rewrite Z3. assert (0 <= (r1 + sg_r g2) * norm2 (sg_tn g2)) by (apply Rmult_le_pos; [lra|apply norm2_nonneg]). lra.
    + rewrite (dist_uw c1 q) in *. set (u := vminus q c1) in *.
      replace (inner u (vscale (1 / norm u) u)) with (1 / norm u * norm2 u) by (unfold inner, norm2, vscale; cbn [vx vy]; ring).
      replace (norm2 (vscale (1 / norm u) u)) with (1 / norm u * (1 / norm u) * norm2 u) by (unfold inner, norm2, vscale; cbn [vx vy]; ring).
      rewrite <- norm_sq. replace (1 / norm u * (norm u * norm u)) with (norm u) by (field; exact Z). replace (1 / norm u * (1 / norm u) * (norm u * norm u)) with 1 by (field; exact Z). lra.
  - unfold segment_to_segment. destruct (gjk a b (ci_id info)) as [[pts fl]|] eqn:G; [|discriminate]. destruct (nltb _ _); [intros [= <-]; cbn [set_id ci_arr]; rewrite E; constructor|].
    match goal with |- (if ?x then _ else _) = _ -> _ => destruct x end; [apply contact_deep; exact E|intros [= <-]; cbn [set_id ci_arr]; rewrite E; constructor].
  - unfold segment_to_poly. destruct (gjk a b (ci_id info)) as [[pts fl]|] eqn:G; [|discriminate].
    match goal with |- (if ?x then _ else _) = _ -> _ => destruct x end; [apply contact_deep; exact E|intros [= <-]; cbn [set_id ci_arr]; rewrite E; constructor].
  - unfold poly_to_poly. destruct (gjk a b (ci_id info)) as [[pts fl]|] eqn:G; [|discriminate].
    match goal with |- (if ?x then _ else _) = _ -> _ => destruct x end; [apply contact_deep; exact E|intros [= <-]; cbn [set_id ci_arr]; rewrite E; constructor].
Qed.
Lemma shapes_deep (a b : CShape R) n pts : sound (cs_class a) -> sound (cs_class b) -> (order (cs_class a) <= order (cs_class b))%nat -> circle_poly a b = false ->
  shapes_collide a b = Some (n, pts) -> Forall (fun c => pt_d c <= 0 /\ pt_d c = inner (vminus (pt_b c) (pt_a c)) n) pts.
Proof.
  intros SA SB Ho NC. unfold shapes_collide, collide. replace (order (cs_class b) <? order (cs_class a))%nat with false by (symmetry; apply Nat.ltb_ge; exact Ho).
  destruct (nth_error builtin _) as [f|]; [|discriminate]. destruct (call f a b _) as [info|] eqn:E; [|discriminate]. cbn [option_map]. intros [= <- <-].
  apply call_deep in E; auto. apply Forall_map. eapply Forall_impl; [|exact E]. intros c Hc. cbn [pt_d pt_a pt_b]. split; [exact Hc|reflexivity].
Qed.
Lemma answer_disjoint A B a b n d : answer A B a b n d -> 0 <= radius A -> 0 <= radius B -> radius A + radius B < d -> ~ overlap (covers A) (covers B).
Proof.
  intros (_ & _ & [(_ & Hd & _)|(Hn & Hd & _)]) PA PB Hr; [lra|]. intros (z & (x & Hx & Dx) & (y & Hy & Dy)).
  specialize (Hn x y Hx Hy). pose proof (dist_tri x z y) as T. rewrite (dist_sym x z) in T. lra.
Qed.
