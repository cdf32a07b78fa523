(** Segment queries (C46): circles, thin segments and thin polygons. *)
From Coq Require Import Reals ZArith Bool List Lra Lia Psatz.
From Verif Require Import Num Spec SpecShapes.
From Verif.Model Require Import Vector BB Transform Shapes.
From Verif.Proofs Require Import RTac Geom ShapePf ShapePf2 PolyPf PolyPf2.
Import ListNotations.

Lemma lerp_seg a b t : vlerp a b t = seg_point a b t.
Proof. apply vec_eq; unfold vlerp, seg_point, vadd, vmult; unR; cbn [vx vy]; ring. Qed.
(** ** circles *)
Definition disc (c : RV) (r : R) (p : RV) : Prop := dist p c <= r.
Lemma disc_sq c r p : 0 <= r -> (disc c r p <-> dist2 p c <= r * r).
Proof. intros R0. unfold disc. rewrite <- dist_sq. pose proof (dist_nonneg p c). split; intros; nra. Qed.
Lemma circle_sq c r1 r2 a b info : 0 <= r1 + r2 -> a <> b -> r1 + r2 < dist a c -> let i := circle_segment_query c r1 a b r2 info in
  (no_hit (disc c (r1 + r2)) a b /\ i = info) \/
  (exists t, first_hit (disc c (r1 + r2)) a b t /\ let n := vnormalize (vminus (seg_point a b t) c) in i = mkSI true (vminus (seg_point a b t) (vscale r2 n)) n t).
Proof.
  intros R0 NE A. cbv zeta. unfold circle_segment_query. set (Rr := r1 + r2) in *. unR. fold Rr.
  set (qa := vdot (vsub a c) (vsub a c) - 2 * vdot (vsub a c) (vsub b c) + vdot (vsub b c) (vsub b c)). set (qb := vdot (vsub a c) (vsub b c) - vdot (vsub a c) (vsub a c)).
  set (C := vdot (vsub a c) (vsub a c) - Rr * Rr).
  assert (Qa : qa = dist2 a b) by (unfold qa, dist2, vdot, vsub; unR; cbn [vx vy]; ring). assert (Qp : 0 < qa) by (rewrite Qa, <- dist_sq; pose proof (dist_pos _ _ NE); now apply Rmult_lt_0_compat).
  assert (Cp : 0 < C). { unfold C. replace (vdot (vsub a c) (vsub a c)) with (dist2 a c) by (unfold dist2, vdot, vsub; unR; cbn [vx vy]; ring). rewrite <- dist_sq. nra. }
  assert (F : forall s, dist2 (seg_point a b s) c - Rr * Rr = qa * s * s + 2 * qb * s + C) by (intros s; unfold qa, qb, C, dist2, vdot, vsub, seg_point; unR; cbn [vx vy]; ring).
  assert (H : forall s, disc c Rr (seg_point a b s) <-> qa * s * s + 2 * qb * s + C <= 0) by (intros s; rewrite disc_sq, <- F by auto; lra).
  clearbody qa qb C. clear F Qa. set (D := qb * qb - qa * C).
  assert (SQ : forall s, qa * (qa * s * s + 2 * qb * s + C) = (qa * s + qb) * (qa * s + qb) - D) by (intros; unfold D; ring).
  destruct (Rleb 0 D) eqn:B; rbool.
  2:{ left. split; auto. intros s S X. apply H in X. specialize (SQ s). pose proof (sq_pos (qa * s + qb)). nra. }
  set (w := sqrt D). assert (W : w * w = D) by now apply sqrt_sqrt. assert (W0 : 0 <= w) by apply sqrt_pos. set (t := (- qb - w) / qa). assert (T : qa * t = - qb - w) by (unfold t; field; lra). clearbody t w.
  assert (LO : forall s, disc c Rr (seg_point a b s) -> t <= s). { intros s X. apply H in X. specialize (SQ s). rewrite <- W in SQ. set (f := qa * s * s + 2 * qb * s + C) in *. assert (G0 : 0 <= qa * - f) by (apply Rmult_le_pos; lra). set (y := qa * s + qb) in *. assert (G : y * y <= w * w) by lra. assert (- w <= y) by (apply Rnot_lt_le; intros LT; nra). unfold y in *. apply Rmult_le_reg_l with qa; lra. }
  assert (ON : disc c Rr (seg_point a b t)). { apply H. apply Rmult_le_reg_l with qa; auto. rewrite SQ, T, <- W. lra. }
  destruct (Rleb 0 t && Rleb t 1)%bool eqn:B2; rbool.
  - right. exists t. split; [split; [lra|]; split; auto; intros s _ X; now apply LO|]. rewrite !lerp_seg. assert (E : seg_point (vsub a c) (vsub b c) t = vminus (seg_point a b t) c) by (apply vec_eq; unfold seg_point, vminus, vsub; unR; cbn [vx vy]; ring). rewrite E. f_equal. apply vec_eq; unfold vsub, vmult, vminus, vscale; unR; cbn [vx vy]; ring.
  - left. split; auto. intros s S X. assert (L := LO s X). apply andb_false_iff in B2. destruct B2 as [B2|B2]; rbool; [|lra]. apply H in X. assert (Wq : 0 < w + qb) by nra. assert (QC : 0 < qa * C) by now apply Rmult_lt_0_compat. assert (0 < qb) by (apply Rnot_le_lt; intros Q; assert (0 < (w + qb) * (w - qb)) by (apply Rmult_lt_0_compat; lra); unfold D in W; lra). assert (0 <= qa * s * s) by (apply Rmult_le_pos; [apply Rmult_le_pos|]; lra). nra.
Qed.

(** ** thin segments *)
Lemma thin_cross ta tb a b t : on_segment ta tb (seg_point a b t) -> turn ta tb a <> 0 -> 0 <= t <= 1 -> turn ta tb b <> 0 -> turn ta tb a * turn ta tb b < 0 /\ t = turn ta tb a / (turn ta tb a - turn ta tb b) /\ turn a b ta * turn a b tb <= 0.
Proof.
  intros (u & U & E) NA T NB. assert (Ea : (1 - t) * turn ta tb a + t * turn ta tb b = 0). { transitivity (turn ta tb (seg_point a b t)); [unfold turn, seg_point; cbn; ring|]. rewrite E. unfold turn, seg_point. cbn. ring. }
  assert (Eb : (1 - u) * turn a b ta + u * turn a b tb = 0). { transitivity (turn a b (seg_point ta tb u)); [unfold turn, seg_point; cbn; ring|]. rewrite <- E. unfold turn, seg_point. cbn. ring. }
  set (A := turn ta tb a) in *. set (B := turn ta tb b) in *. set (P := turn a b ta) in *. set (Q := turn a b tb) in *. clearbody A B P Q. clear E.
  assert (T0 : t <> 0) by (intros ->; apply NA; lra). assert (T1 : t <> 1) by (intros ->; apply NB; lra).
  assert (AB : A * B < 0). { assert (N : A = - (t / (1 - t)) * B) by (apply Rmult_eq_reg_l with (1 - t); [field_simplify; lra|lra]). rewrite N. assert (0 < t / (1 - t)) by (apply Rdiv_lt_0_compat; lra). assert (0 < B * B) by nra. nra. }
  split; auto. assert (A - B <> 0) by nra. split; [apply Rmult_eq_reg_r with (A - B); auto; field_simplify; lra|].
  destruct (Req_dec u 0) as [->|U0]; [replace P with 0 by lra; lra|]. destruct (Req_dec u 1) as [->|U1]; [replace Q with 0 by lra; lra|].
  assert (N : P = - (u / (1 - u)) * Q) by (apply Rmult_eq_reg_l with (1 - u); [field_simplify; lra|lra]). rewrite N. assert (0 < u / (1 - u)) by (apply Rdiv_lt_0_compat; lra). pose proof (sq_pos Q). nra.
Qed.
Lemma thin_hit ta tb a b : turn ta tb a * turn ta tb b < 0 -> turn a b ta * turn a b tb <= 0 -> let t := turn ta tb a / (turn ta tb a - turn ta tb b) in 0 < t < 1 /\ on_segment ta tb (seg_point a b t).
Proof.
  intros AB PQ t. set (A := turn ta tb a) in *. set (B := turn ta tb b) in *. set (P := turn a b ta) in *. set (Q := turn a b tb) in *.
  assert (D : P - Q = B - A) by (unfold A, B, P, Q, turn; ring). assert (ND : A - B <> 0) by nra. assert (Tt : t * (A - B) = A) by (unfold t; field; auto).
  split. { destruct (Rlt_dec 0 A); [assert (B < 0) by nra|assert (A < 0 < B) by nra]; split; nra. }
  exists (P / (P - Q)). assert (NP : P - Q <> 0) by lra. set (u := P / (P - Q)). assert (Uu : u * (P - Q) = P) by (unfold u; field; auto).
  split. { destruct (Rlt_dec 0 (P - Q)); [assert (0 <= P /\ Q <= 0) by nra|assert (P <= 0 <= Q) by nra]; split; nra. }
  apply vec_eq; unfold seg_point; cbn [vx vy]; apply Rmult_eq_reg_r with (A - B); auto.
  - replace ((vx a + t * (vx b - vx a)) * (A - B)) with (vx a * (A - B) + (t * (A - B)) * (vx b - vx a)) by ring. replace ((vx ta + u * (vx tb - vx ta)) * (A - B)) with (vx ta * (A - B) + - (u * (P - Q)) * (vx tb - vx ta)) by (rewrite D; ring). rewrite Tt, Uu. unfold A, B, P, turn. ring.
  - replace ((vy a + t * (vy b - vy a)) * (A - B)) with (vy a * (A - B) + (t * (A - B)) * (vy b - vy a)) by ring. replace ((vy ta + u * (vy tb - vy ta)) * (A - B)) with (vy ta * (A - B) + - (u * (P - Q)) * (vy tb - vy ta)) by (rewrite D; ring). rewrite Tt, Uu. unfold A, B, P, turn. ring.
Qed.
(** the cached normal: a positive multiple of the right-hand perpendicular *)
Definition seg_normal (s : Seg R) : Prop := exists k, 0 < k /\ sg_tn s = vscale k (vrperp (vsub (sg_tb s) (sg_ta s))).
Lemma seg_normal_cache a b r t : rigid t -> seg_normal (fst (seg_cache (new_segment a b r) t)).
Proof.
  intros (H1 & H2 & H3). unfold seg_cache, new_segment. cbn [sg_a sg_b sg_n sg_r]. do 2 match goal with |- context [let (_, _) := ?x in _] => destruct x end. unfold seg_normal. cbn [fst sg_tn sg_ta sg_tb]. rewrite normalize_eq. exists (1 / (norm (vsub b a) + 1 / 1000000000000000)). split; [apply normalize_scale|].
  set (k := 1 / _). clearbody k. apply vec_eq; unfold t_vect, t_point, vscale, vrperp, vsub; unR; cbn [vx vy]; rewrite H1, H2; ring.
Qed.
Lemma seg_cache_pts (s : Seg R) t : sg_ta (fst (seg_cache s t)) = t_point t (sg_a s) /\ sg_tb (fst (seg_cache s t)) = t_point t (sg_b s) /\ sg_r (fst (seg_cache s t)) = sg_r s.
Proof. unfold seg_cache. do 2 match goal with |- context [let (_, _) := ?x in _] => destruct x end. cbn. auto. Qed.
Lemma thin_seg (s : Seg R) a b info : sg_r s = 0 -> seg_normal s -> turn (sg_ta s) (sg_tb s) a <> 0 -> turn (sg_ta s) (sg_tb s) b <> 0 -> let i := seg_segment_query s a b 0 info in
  (no_hit (on_segment (sg_ta s) (sg_tb s)) a b /\ i = info) \/
  (exists t, first_hit (on_segment (sg_ta s) (sg_tb s)) a b t /\ (forall u, 0 <= u <= 1 -> on_segment (sg_ta s) (sg_tb s) (seg_point a b u) -> u = t) /\ si_hit i = true /\ si_alpha i = t /\ si_point i = seg_point a b t /\ 0 < inner (si_normal i) (vminus a b) /\ inner (si_normal i) (vminus (sg_tb s) (sg_ta s)) = 0).
Proof.
  intros R0 (k & K & N) NA NB. cbv zeta. unfold seg_segment_query. rewrite R0. unR. set (ta := sg_ta s) in *. set (tb := sg_tb s) in *.
  set (A := turn ta tb a) in *. set (B := turn ta tb b) in *. set (P := turn a b ta) in *. set (Q := turn a b tb) in *.
  assert (Ed : vdot (vsub ta a) (sg_tn s) = k * A) by (rewrite N; unfold A, turn, vdot, vsub, vscale, vrperp; unR; cbn [vx vy]; ring). rewrite !Ed.
  assert (Eb : vdot (vsub b a) (sg_tn s) = k * (A - B)) by (rewrite N; unfold A, B, turn, vdot, vsub, vscale, vrperp; unR; cbn [vx vy]; ring). rewrite !Eb.
  set (fl := if Rltb 0 (k * A) then vneg (sg_tn s) else sg_tn s).
  replace (vcross (vsub b a) (vadd ta (vsub (vmult fl (0 + 0)) a))) with P by (unfold P, turn, vcross, vsub, vadd, vmult; unR; cbn [vx vy]; ring).
  replace (vcross (vsub b a) (vadd tb (vsub (vmult fl (0 + 0)) a))) with Q by (unfold Q, turn, vcross, vsub, vadd, vmult; unR; cbn [vx vy]; ring).
  set (df := if Rltb 0 (k * A) then _ else _). assert (DF : df = k * A) by (unfold df; destruct (Rltb 0 (k * A)); ring). rewrite DF. clear df DF.
  assert (NH : (0 < P * Q \/ 0 <= A * B) -> no_hit (on_segment ta tb) a b). { intros O u U X. destruct (thin_cross ta tb a b u X NA U NB) as (X1 & _ & X2). fold A B P Q in X1, X2. lra. }
  destruct (Rleb (P * Q) 0) eqn:B1; rbool.
  - assert (Em : - (k * A) * (k * (A - B) - k * A) = (k * k) * (A * B)) by ring. rewrite Em. assert (KK : 0 < k * k) by now apply Rmult_lt_0_compat.
    destruct (Rltb (k * k * (A * B)) 0) eqn:B2; rbool.
    + right. assert (AB : A * B < 0) by nra. destruct (thin_hit ta tb a b AB B1) as (T1 & T2). cbv zeta in *. fold A B in T1, T2. set (t := A / (A - B)) in *.
      assert (Et : - (k * A) / (- (k * A) - (k * (A - B) - k * A)) = t). { unfold t. assert (A - B <> 0) by nra. replace (- (k * A) - (k * (A - B) - k * A)) with (- (k * (A - B))) by ring. field. split; lra. }
      rewrite Et. exists t. assert (UQ : forall u, 0 <= u <= 1 -> on_segment ta tb (seg_point a b u) -> u = t) by (intros u U X; destruct (thin_cross ta tb a b u X NA U NB) as (_ & -> & _); reflexivity).
      split; [split; [lra|]; split; [auto|intros u U X; rewrite (UQ u U X); lra]|]. split; auto. cbn [si_hit si_alpha si_point si_normal]. do 2 (split; [reflexivity|]). split; [rewrite lerp_seg; apply vec_eq; unfold vsub, vmult; unR; cbn [vx vy]; ring|].
      assert (I1 : inner (sg_tn s) (vminus a b) = - (k * (A - B))) by (rewrite <- Eb; unfold inner, vminus, vdot, vsub; unR; cbn [vx vy]; ring). assert (I2 : inner (sg_tn s) (vminus tb ta) = 0) by (rewrite N; unfold inner, vminus, vscale, vrperp, vsub; unR; cbn [vx vy]; ring).
      unfold fl. destruct (Rltb 0 (k * A)) eqn:B3; rbool.
      * assert (0 < A) by nra. assert (B < 0) by nra. split; [|unfold vneg, inner in *; unR; cbn [vx vy] in *; lra]. replace (inner (vneg (sg_tn s)) (vminus a b)) with (- inner (sg_tn s) (vminus a b)) by (unfold vneg, inner; unR; cbn [vx vy]; ring). rewrite I1. nra.
      * assert (A < 0) by nra. assert (0 < B) by nra. split; auto. rewrite I1. nra.
    + left. split; auto. apply NH. right. nra.
  - left. rewrite (proj2 (Reqb_true (0 + 0) 0)) by ring. cbn [negb]. split; auto.
Qed.

(** ** thin polygons *)
Lemma fold_hits {A} (f : SegInfo R -> A -> SegInfo R) (acc : A -> bool) (h : A -> SegInfo R) : (forall i x, f i x = if acc x then h x else i) ->
  forall l i, (fold_left f l i = i /\ forall x, In x l -> acc x = false) \/ exists x, In x l /\ acc x = true /\ fold_left f l i = h x.
Proof.
  intros F. induction l as [|x l IH]; intros i; [left; split; auto; intros x []|]. cbn [fold_left]. rewrite F. destruct (acc x) eqn:E.
  - right. destruct (IH (h x)) as [(-> & N)|(y & J & K & ->)]; [exists x|exists y]; cbn [In]; auto.
  - destruct (IH i) as [(-> & N)|(y & J & K & ->)]; [left; split; auto; intros y [<-|J]; auto|right; exists y; cbn [In]; auto].
Qed.
Definition edge_pair (e : RV * RV) (pq : Plane R * Plane R) : Prop := pl_v0 (fst pq) = fst e /\ plane_of e (snd pq).
Lemma Forall2_impl' {A B} (P Q : A -> B -> Prop) l m : (forall a b, P a b -> Q a b) -> Forall2 P l m -> Forall2 Q l m.
Proof. induction 2; constructor; auto. Qed.
Lemma pairs_ok ws ps d : ws <> [] -> Forall2 plane_of (ring ws) ps -> Forall2 edge_pair (ring ws) (loop d ps).
Proof.
  intros NE F. destruct ws as [|w ws]; [congruence|]. unfold ring in *. set (L := w :: ws) in *. assert (ML : map pl_v0 ps = L). { change (combine (last L w :: L) L) with (ring L) in F. rewrite <- (ring_snd L). clear -F. induction F; cbn [map]; [reflexivity|]. f_equal; auto. apply H. }
  unfold loop. assert (E : pl_v0 (last ps d) = last L w). { rewrite <- (last_map pl_v0 ps d), ML. apply last_dflt. discriminate. } set (x := last L w) in *. set (q0 := last ps d) in *. clearbody x q0 L. clear NE.
  revert x q0 ps E F ML. induction L as [|y L IH]; intros x q0 ps E F ML; cbn [combine] in *; inversion F; subst; [constructor|]. cbn [combine]. constructor; [split; auto|]. cbn [map] in ML. injection ML as ML1 ML2. apply IH; auto.
Qed.
Lemma plane_thin (a b : RV) e prev q : pl_v0 prev = fst e -> plane_of e q -> fst e <> snd e -> let A := turn (fst e) (snd e) a in let B := turn (fst e) (snd e) b in (A <= 0 -> A <> B) ->
  exists acc h, (forall info, sq_plane a b 0 0 0 info (prev, q) = if acc : bool then h else info) /\ (acc = true <-> A <= 0 /\ (let t := A / (A - B) in 0 <= t <= 1 /\ on_segment (fst e) (snd e) (seg_point a b t))) /\
   si_hit h = true /\ si_alpha h = A / (A - B) /\ si_point h = seg_point a b (A / (A - B)) /\ si_normal h = pl_n q.
Proof.
  intros V (V1 & k & K & N & _) NE A B NP. unfold sq_plane. set (n := pl_n q) in *. rewrite V, V1. destruct e as [u v]. cbn [fst snd] in *. unR.
  assert (Ed : vdot a n - vdot v n - 0 = - (k * A)) by (rewrite N; unfold A, turn, vdot, vsub, vscale, vrperp; unR; cbn [vx vy]; ring). rewrite !Ed.
  assert (Eb : vdot a n - vdot b n = - (k * (A - B))) by (rewrite N; unfold A, B, turn, vdot, vsub, vscale, vrperp; unR; cbn [vx vy]; ring). rewrite !Eb.
  set (t := A / (A - B)). rewrite !lerp_seg.
  destruct (Rltb (- (k * A)) 0) eqn:B1; rbool.
  { exists false, (mkSI true (seg_point a b t) n t). cbn [si_hit si_alpha si_point si_normal]. split; auto. split; [|auto]. split; [discriminate|]. intros [LA _]. nra. }
  assert (LA : A <= 0) by nra. specialize (NP LA). assert (Et : - (k * A) / - (k * (A - B)) = t) by (unfold t; field; split; lra). rewrite !Et.
  destruct (Rltb t 0 || Rltb 1 t)%bool eqn:B2.
  { exists false, (mkSI true (seg_point a b t) n t). cbn [si_hit si_alpha si_point si_normal]. split; auto. split; [|auto]. split; [discriminate|]. intros [_ [T _]]. apply orb_true_iff in B2. destruct B2; rbool; lra. }
  rbool. set (x := seg_point a b t). exists (Rleb (vcross n u) (vcross n x) && Rleb (vcross n x) (vcross n v))%bool, (mkSI true (vsub x (vmult n 0)) n t). cbn [si_hit si_alpha si_point si_normal]. split; auto. split.
  2:{ do 2 (split; [reflexivity|]). split; auto. apply vec_eq; unfold vsub, vmult; unR; cbn [vx vy]; ring. }
  assert (Zx : turn u v x = 0). { transitivity ((1 - t) * A + t * B); [unfold x, A, B, turn, seg_point; cbn; ring|]. unfold t. field. lra. }
  assert (D2 : 0 < dist2 u v) by (rewrite <- dist_sq; pose proof (dist_pos _ _ NE); now apply Rmult_lt_0_compat).
  set (g := inner (vminus x u) (vminus v u)). assert (Cu : vcross n x - vcross n u = k * g) by (rewrite N; unfold g, vcross, vscale, vrperp, vsub, inner, vminus; unR; cbn [vx vy]; ring).
  assert (Cv : vcross n v - vcross n x = k * (dist2 u v - g)) by (rewrite N; unfold g, dist2, vcross, vscale, vrperp, vsub, inner, vminus; unR; cbn [vx vy]; ring).
  assert (EX : x = seg_point u v (g / dist2 u v)).
  { set (y := g / dist2 u v). assert (Y : y * dist2 u v = g) by (unfold y; field; lra). clearbody x. apply vec_eq; unfold seg_point; cbn [vx vy]; apply Rmult_eq_reg_r with (dist2 u v); try lra.
    - transitivity (vx u * dist2 u v + (y * dist2 u v) * (vx v - vx u)); [|ring]. rewrite Y. unfold g, dist2, inner, vminus. cbn [vx vy]. unfold turn in Zx. assert (Z : (vy v - vy u) * ((vx v - vx u) * (vy x - vy u) - (vy v - vy u) * (vx x - vx u)) = 0) by (rewrite Zx; ring). lra.
    - transitivity (vy u * dist2 u v + (y * dist2 u v) * (vy v - vy u)); [|ring]. rewrite Y. unfold g, dist2, inner, vminus. cbn [vx vy]. unfold turn in Zx. assert (Z : (vx v - vx u) * ((vx v - vx u) * (vy x - vy u) - (vy v - vy u) * (vx x - vx u)) = 0) by (rewrite Zx; ring). lra. }
  split.
  - intros Q. rbool. split; auto. split; [lra|]. exists (g / dist2 u v). split; auto. assert (0 <= g <= dist2 u v) by (split; nra). split; [apply Rmult_le_pos; [lra|apply Rlt_le, Rinv_0_lt_compat; lra]|]. apply Rmult_le_reg_r with (dist2 u v); auto. replace (g / dist2 u v * dist2 u v) with g by (field; lra). lra.
  - intros (_ & _ & (y & Y & E)). fold x in E. assert (G : g = y * dist2 u v) by (unfold g; rewrite E; unfold inner, vminus, seg_point, dist2; cbn [vx vy]; ring). assert (0 <= g <= dist2 u v) by (rewrite G; split; nra). rbool; nra.
Qed.
Lemma Forall2_in_l {A B} (P : A -> B -> Prop) l m : Forall2 P l m -> forall a, In a l -> exists b, In b m /\ P a b.
Proof. induction 1; intros a []; [subst; eexists; cbn; eauto|]. destruct (IHForall2 a H1) as (b & I & Q). exists b. cbn. auto. Qed.
Lemma Forall2_in_r {A B} (P : A -> B -> Prop) l m : Forall2 P l m -> forall b, In b m -> exists a, In a l /\ P a b.
Proof. induction 1; intros b []; [subst; eexists; cbn; eauto|]. destruct (IHForall2 b H1) as (a & I & Q). exists a. cbn. auto. Qed.
Lemma thin_poly ws ps a b info : convex_ccw ws -> Forall2 plane_of (ring ws) ps -> ~ region ws a ->
  (forall u v, In (u, v) (ring ws) -> turn u v a <= 0 -> turn u v a <> turn u v b) -> let i := poly_segment_query ps 0 a b 0 info in
  (no_hit (region ws) a b /\ i = info) \/
  (exists t u v q, first_hit (region ws) a b t /\ In (u, v) (ring ws) /\ on_segment u v (seg_point a b t) /\ plane_of (u, v) q /\ si_hit i = true /\ si_alpha i = t /\ si_point i = seg_point a b t /\ si_normal i = pl_n q).
Proof.
  intros CV PL Na NP. cbv zeta. unfold poly_segment_query. unR. rewrite (proj2 (Rltb_false 0 (0 + 0))) by lra. replace (0 + 0) with 0 by ring.
  assert (NE : ws <> []) by (destruct CV as (L & _); destruct ws; [cbn in L; lia|discriminate]). assert (PO := pairs_ok ws ps (mkPl vzero vzero) NE PL). set (prs := loop (mkPl vzero vzero) ps) in *. clearbody prs.
  assert (AF : forall u v s, turn u v (seg_point a b s) = (1 - s) * turn u v a + s * turn u v b) by (intros; unfold turn, seg_point; cbn; ring).
  (* what an accepted plane means *)
  assert (FH : forall u v, In (u, v) (ring ws) -> turn u v a <= 0 -> let t := turn u v a / (turn u v a - turn u v b) in 0 <= t <= 1 -> on_segment u v (seg_point a b t) -> first_hit (region ws) a b t).
  { intros u v I LA t T O. assert (Rx : region ws (seg_point a b t)) by (apply (boundary_region ws CV); exists u, v; auto). split; auto. split; auto. intros s S X. apply Rnot_lt_le. intros LT. specialize (NP u v I LA). specialize (X u v I). rewrite AF in X.
    set (A := turn u v a) in *. set (B := turn u v b) in *. assert (E : t * (A - B) = A) by (unfold t; field; lra). assert (A <> 0). { intros Z. apply Na. assert (T0 : t = 0) by (unfold t; rewrite Z; unfold Rdiv; ring). rewrite T0 in Rx. replace (seg_point a b 0) with a in Rx; auto. destruct a. apply vec_eq; unfold seg_point; cbn; ring. }
    assert (A < 0) by lra. assert (A - B < 0) by nra. nra. }
  assert (NN : forall u v s, In (u, v) (ring ws) -> turn u v a < 0 -> 0 <= s <= 1 -> turn u v (seg_point a b s) = 0 -> s = turn u v a / (turn u v a - turn u v b)).
  { intros u v s I LA S Z. rewrite AF in Z. specialize (NP u v I (Rlt_le _ _ LA)). apply Rmult_eq_reg_r with (turn u v a - turn u v b); [|lra]. field_simplify; lra. }
  clear NE PL. 
  assert (GO : forall L prs info, Forall2 edge_pair L prs -> (forall e, In e L -> In e (ring ws)) -> let i := fold_left (sq_plane a b 0 0 0) prs info in
    (i = info /\ forall u v, In (u, v) L -> ~ (turn u v a <= 0 /\ let t := turn u v a / (turn u v a - turn u v b) in 0 <= t <= 1 /\ on_segment u v (seg_point a b t))) \/
    exists u v q, In (u, v) L /\ (turn u v a <= 0 /\ let t := turn u v a / (turn u v a - turn u v b) in 0 <= t <= 1 /\ on_segment u v (seg_point a b t)) /\ plane_of (u, v) q /\ si_hit i = true /\ si_alpha i = turn u v a / (turn u v a - turn u v b) /\ si_point i = seg_point a b (turn u v a / (turn u v a - turn u v b)) /\ si_normal i = pl_n q).
  { clear info prs PO. intros L prs info F. revert info. induction F as [|[u v] [pr q] L prs [P1 P2] F IH]; intros info SUB; cbv zeta; cbn [fold_left]; [left; split; auto; intros u v []|]. cbn [fst snd] in P1, P2.
    assert (I : In (u, v) (ring ws)) by (apply SUB; left; auto). destruct (plane_thin a b (u, v) pr q P1 P2 (cv_ne ws CV u v I) (NP u v I)) as (acc & h & H1 & H2 & H3). cbn [fst snd] in *. rewrite H1.
    destruct (IH (if acc then h else info)) as [(E & N)|(u' & v' & q' & I' & K)]; [intros; apply SUB; right; auto| |right; exists u', v', q'; split; [right; auto|auto]].
    rewrite E. destruct acc; [right; exists u, v, q; split; [left; auto|]; split; [now apply H2|]; split; auto|]. left. split; auto. intros x y [[= <- <-]|J]; [|auto]. intros X. apply H2 in X. discriminate. }
  destruct (GO (ring ws) prs info PO (fun e I => I)) as [(E & N)|(u & v & q & I & (LA & T & O) & P & K)]; cbv zeta in *.
  - left. split; auto. intros s S X. assert (X' : exists a0 b0, In (a0, b0) (ring ws) /\ turn a0 b0 a < 0) by (destruct (classic_ex (ring ws) a) as [Y|Y]; [auto|contradiction]).
    destruct (enter (ring ws) a (seg_point a b s) X X') as (s' & S' & Rx & u & v & I & Z & LA).
    assert (EE : seg_point a (seg_point a b s) s' = seg_point a b (s' * s)) by (apply vec_eq; unfold seg_point; cbn; ring). rewrite EE in Z, Rx. assert (S2 : 0 <= s' * s <= 1) by nra.
    destruct (tight_edge ws CV u v _ I Rx Z) as (u' & v' & k & I' & O' & K & TK). assert (LA' : turn u' v' a < 0) by (rewrite TK; nra). assert (Z' : turn u' v' (seg_point a b (s' * s)) = 0) by (rewrite TK, Z; ring).
    apply (N u' v' I'). split; [lra|]. rewrite <- (NN u' v' (s' * s) I' LA' S2 Z'). split; auto.
  - right. exists (turn u v a / (turn u v a - turn u v b)), u, v, q. split; [now apply (FH u v)|]. auto.
Qed.
