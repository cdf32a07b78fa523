(** Area, centroid and moment as integrals *)
From Coq Require Import Reals List Lra Lia.
From Coquelicot Require Import Coquelicot.
From Verif Require Import Num Spec SpecMass.
From Verif.Model Require Import Vector BB Transform Body Shapes ShapeMass.
From Verif.Proofs Require Import RTac Geom MassPf.
Import ListNotations.
Local Open Scope R_scope.

Lemma poly_int a0 a1 a2 a3 x y : is_RInt (fun t => a0 + a1 * t + a2 * (t * t) + a3 * (t * t * t)) x y
  ((a0 * y + a1 * (y * y / 2) + a2 * (y * y * y / 3) + a3 * (y * y * y * y / 4)) - (a0 * x + a1 * (x * x / 2) + a2 * (x * x * x / 3) + a3 * (x * x * x * x / 4))).
Proof.
  apply (is_RInt_derive (fun t => a0 * t + a1 * (t * t / 2) + a2 * (t * t * t / 3) + a3 * (t * t * t * t / 4))
                        (fun t => a0 + a1 * t + a2 * (t * t) + a3 * (t * t * t))).
  - intros t _. auto_derive; [exact I|]. field.
  - intros t _. apply (ex_derive_continuous (fun t => a0 + a1 * t + a2 * (t * t) + a3 * (t * t * t))). auto_derive. exact I.
Qed.
Lemma int_ext (f g : R -> R) (x y i : R) : (forall t, f t = g t) -> is_RInt f x y i -> is_RInt g x y i.
Proof. intros E. apply is_RInt_ext. intros t _. apply E. Qed.

Lemma tri_const v1 v2 : triangle_integral (fun _ => 1) v1 v2 (crs v1 v2 / 2).
Proof.
  exists (fun s => 1 - s). split.
  - intros s. apply (int_ext (fun t => 1 + 0 * t + 0 * (t * t) + 0 * (t * t * t))); [intros; ring|]. replace (1 - s) with ((1 * (1 - s) + 0 * ((1 - s) * (1 - s) / 2) + 0 * ((1 - s) * (1 - s) * (1 - s) / 3) + 0 * ((1 - s) * (1 - s) * (1 - s) * (1 - s) / 4)) - (1 * 0 + 0 * (0 * 0 / 2) + 0 * (0 * 0 * 0 / 3) + 0 * (0 * 0 * 0 * 0 / 4))) at 2 by field. apply poly_int.
  - set (c := vx v1 * vy v2 - vy v1 * vx v2). apply (int_ext (fun s => c + - c * s + 0 * (s * s) + 0 * (s * s * s))); [intros; ring|].
    replace (crs v1 v2 / 2) with ((c * 1 + - c * (1 * 1 / 2) + 0 * (1 * 1 * 1 / 3) + 0 * (1 * 1 * 1 * 1 / 4)) - (c * 0 + - c * (0 * 0 / 2) + 0 * (0 * 0 * 0 / 3) + 0 * (0 * 0 * 0 * 0 / 4))) by (unfold c, crs; field). apply poly_int.
Qed.
Lemma tri_linear (h : RV -> R) v1 v2 : (forall s t, h (vplus (vscale s v1) (vscale t v2)) = s * h v1 + t * h v2) ->
  triangle_integral h v1 v2 ((h v1 + h v2) / 6 * crs v1 v2).
Proof.
  intros E. exists (fun s => s * h v1 * (1 - s) + h v2 * ((1 - s) * (1 - s) / 2)). split.
  - intros s. apply (int_ext (fun t => s * h v1 + h v2 * t + 0 * (t * t) + 0 * (t * t * t))); [intros; rewrite E; ring|].
    replace (s * h v1 * (1 - s) + h v2 * ((1 - s) * (1 - s) / 2)) with ((s * h v1 * (1 - s) + h v2 * ((1 - s) * (1 - s) / 2) + 0 * ((1 - s) * (1 - s) * (1 - s) / 3) + 0 * ((1 - s) * (1 - s) * (1 - s) * (1 - s) / 4)) - (s * h v1 * 0 + h v2 * (0 * 0 / 2) + 0 * (0 * 0 * 0 / 3) + 0 * (0 * 0 * 0 * 0 / 4))) by field. apply poly_int.
  - set (c := vx v1 * vy v2 - vy v1 * vx v2). set (p := h v1). set (q := h v2).
    apply (int_ext (fun s => (c * q / 2) + (c * p - c * q) * s + (c * q / 2 - c * p) * (s * s) + 0 * (s * s * s))); [intros; field|].
    replace ((p + q) / 6 * crs v1 v2) with (((c * q / 2) * 1 + (c * p - c * q) * (1 * 1 / 2) + (c * q / 2 - c * p) * (1 * 1 * 1 / 3) + 0 * (1 * 1 * 1 * 1 / 4)) - ((c * q / 2) * 0 + (c * p - c * q) * (0 * 0 / 2) + (c * q / 2 - c * p) * (0 * 0 * 0 / 3) + 0 * (0 * 0 * 0 * 0 / 4))) by (unfold crs; fold c; field). apply poly_int.
Qed.
Lemma tri_square v1 v2 : triangle_integral norm2 v1 v2 (crs v1 v2 * (inner v1 v1 + inner v1 v2 + inner v2 v2) / 12).
Proof.
  set (p := inner v1 v1). set (q := inner v1 v2). set (w := inner v2 v2).
  assert (E : forall s t, norm2 (vplus (vscale s v1) (vscale t v2)) = s * s * p + 2 * s * q * t + w * (t * t)) by (intros; unfold p, q, w, norm2, inner, vplus, vscale; cbn [vx vy]; ring).
  exists (fun s => s * s * p * (1 - s) + s * q * ((1 - s) * (1 - s)) + w * ((1 - s) * (1 - s) * (1 - s) / 3)). split.
  - intros s. apply (int_ext (fun t => s * s * p + 2 * s * q * t + w * (t * t) + 0 * (t * t * t))); [intros; rewrite E; ring|].
    replace (s * s * p * (1 - s) + s * q * ((1 - s) * (1 - s)) + w * ((1 - s) * (1 - s) * (1 - s) / 3)) with ((s * s * p * (1 - s) + 2 * s * q * ((1 - s) * (1 - s) / 2) + w * ((1 - s) * (1 - s) * (1 - s) / 3) + 0 * ((1 - s) * (1 - s) * (1 - s) * (1 - s) / 4)) - (s * s * p * 0 + 2 * s * q * (0 * 0 / 2) + w * (0 * 0 * 0 / 3) + 0 * (0 * 0 * 0 * 0 / 4))) by field. apply poly_int.
  - set (c := vx v1 * vy v2 - vy v1 * vx v2).
    apply (int_ext (fun s => (c * w / 3) + (c * q - c * w) * s + (c * p - 2 * c * q + c * w) * (s * s) + (c * q - c * p - c * w / 3) * (s * s * s))); [intros; field|].
    replace (crs v1 v2 * (p + q + w) / 12) with (((c * w / 3) * 1 + (c * q - c * w) * (1 * 1 / 2) + (c * p - 2 * c * q + c * w) * (1 * 1 * 1 / 3) + (c * q - c * p - c * w / 3) * (1 * 1 * 1 * 1 / 4)) - ((c * w / 3) * 0 + (c * q - c * w) * (0 * 0 / 2) + (c * p - 2 * c * q + c * w) * (0 * 0 * 0 / 3) + (c * q - c * p - c * w / 3) * (0 * 0 * 0 * 0 / 4))) by (unfold crs; fold c; field). apply poly_int.
Qed.

Lemma tri_unique f v1 v2 i j : triangle_integral f v1 v2 i -> triangle_integral f v1 v2 j -> i = j.
Proof.
  intros (g & G1 & G2) (h & H1 & H2).
  assert (E : forall s, h s = g s) by (intros s; pose proof (is_RInt_unique _ _ _ _ (G1 s)) as A; pose proof (is_RInt_unique _ _ _ _ (H1 s)) as B; congruence).
  apply (int_ext _ (fun s => g s * (vx v1 * vy v2 - vy v1 * vx v2))) in H2; [|intros s; now rewrite E].
  pose proof (is_RInt_unique _ _ _ _ G2) as A. pose proof (is_RInt_unique _ _ _ _ H2) as B. congruence.
Qed.
Lemma sides_total f h : (forall a b, triangle_integral f a b (h a b)) -> forall l, sides_integral f l (esum h l).
Proof.
  intros T. induction l as [|[a b] l IH]; [constructor|]. unfold esum. cbn [map rsum fold_right fst snd]. constructor; [apply T|exact IH].
Qed.
Lemma sides_unique f l : forall i j, sides_integral f l i -> sides_integral f l j -> i = j.
Proof.
  induction l as [|[a b] l IH]; intros i j A B; inversion A; inversion B; subst; [reflexivity|]. f_equal; [eapply tri_unique|eapply IH]; eassumption.
Qed.
Lemma sides_edges (vs : list RV) : sides vs = edges vs.
Proof. destruct vs; reflexivity. Qed.
Lemma polygon_value f h vs i : (forall a b, triangle_integral f a b (h a b)) -> polygon_integral f vs i -> i = esum h (edges vs).
Proof. intros T P. unfold polygon_integral in P. rewrite sides_edges in P. eapply sides_unique; [exact P|]. now apply sides_total. Qed.
Lemma polygon_exists f h vs : (forall a b, triangle_integral f a b (h a b)) -> polygon_integral f vs (esum h (edges vs)).
Proof. intros T. unfold polygon_integral. rewrite sides_edges. now apply sides_total. Qed.

Definition h1 (a b : RV) := crs a b / 2.
Definition hx (a b : RV) := (vx a + vx b) / 6 * crs a b.
Definition hy (a b : RV) := (vy a + vy b) / 6 * crs a b.
Definition h2 (a b : RV) := crs a b * (inner a a + inner a b + inner b b) / 12.
Lemma t1 a b : triangle_integral (fun _ => 1) a b (h1 a b). Proof. apply tri_const. Qed.
Lemma tx a b : triangle_integral (@vx R) a b (hx a b). Proof. apply (tri_linear (@vx R)). intros. unfold vplus, vscale. cbn [vx vy]. ring. Qed.
Lemma ty a b : triangle_integral (@vy R) a b (hy a b). Proof. apply (tri_linear (@vy R)). intros. unfold vplus, vscale. cbn [vx vy]. ring. Qed.
Lemma t2 a b : triangle_integral norm2 a b (h2 a b). Proof. apply tri_square. Qed.

Lemma area_integral vs A : polygon_integral (fun _ => 1) vs A -> area_for_poly vs 0 = A.
Proof.
  intros P. rewrite (polygon_value _ _ _ _ t1 P), area_eq. rewrite (esum_ext h1 (fun a b => / 2 * crs a b)) by (intros; unfold h1; field). rewrite esum_scale. lra.
Qed.
Lemma centroid_integral vs A X Y : polygon_integral (fun _ => 1) vs A -> polygon_integral (@vx R) vs X -> polygon_integral (@vy R) vs Y -> A <> 0 ->
  centroid_for_poly vs = mkV (X / A) (Y / A).
Proof.
  intros P Px Py N. rewrite (polygon_value _ _ _ _ tx Px), (polygon_value _ _ _ _ ty Py). rewrite (polygon_value _ _ _ _ t1 P) in *. rewrite centroid_eq.
  rewrite (esum_ext h1 (fun a b => / 2 * crs a b)) in * by (intros; unfold h1; field). rewrite esum_scale in *.
  rewrite (esum_ext hx (fun a b => / 6 * cx a b)) by (intros; unfold hx, cx; field). rewrite (esum_ext hy (fun a b => / 6 * cy a b)) by (intros; unfold hy, cy; field). rewrite !esum_scale.
  assert (esum crs (edges vs) <> 0) by (intros Z; apply N; rewrite Z; ring). apply vec_eq; cbn [vx vy]; field; auto.
Qed.
Lemma moment_integral (m : R) vs o r A J : length vs <> 2%nat -> polygon_integral (fun _ => 1) (map (vplus o) vs) A -> polygon_integral norm2 (map (vplus o) vs) J -> A <> 0 ->
  moment_for_poly m vs o r = m * J / A.
Proof.
  intros L P Pj N. rewrite <- moment_offset by exact L. set (ws := map (vplus o) vs) in *.
  rewrite (polygon_value _ _ _ _ t2 Pj). rewrite (polygon_value _ _ _ _ t1 P) in *.
  rewrite (esum_ext h1 (fun a b => / 2 * crs a b)) in * by (intros; unfold h1; field). rewrite esum_scale in *.
  assert (esum crs (edges ws) <> 0) by (intros Z; apply N; rewrite Z; ring).
  rewrite moment_eq; [|unfold ws; rewrite map_length; exact L|assumption].
  rewrite (esum_ext h2 (fun a b => / 12 * mq (mkV 0 0) a b)).
  2:{ intros a b _. unfold h2, mq, crs, inner, vplus. cbn [vx vy]. field. }
  rewrite esum_scale. field. auto.
Qed.

(** rings *)
Lemma ring_area r1 r2 A : 0 <= r1 <= r2 -> ring_integral (fun _ => 1) r1 r2 A -> area_for_circle r1 r2 = A.
Proof.
  intros L P. assert (Q : ring_integral (fun _ => 1) r1 r2 (PI * (r2 * r2 - r1 * r1))).
  { unfold ring_integral. apply (int_ext (fun t => 0 + (2 * PI) * t + 0 * (t * t) + 0 * (t * t * t))); [intros; ring|].
    replace (PI * (r2 * r2 - r1 * r1)) with ((0 * r2 + 2 * PI * (r2 * r2 / 2) + 0 * (r2 * r2 * r2 / 3) + 0 * (r2 * r2 * r2 * r2 / 4)) - (0 * r1 + 2 * PI * (r1 * r1 / 2) + 0 * (r1 * r1 * r1 / 3) + 0 * (r1 * r1 * r1 * r1 / 4))) by field. apply poly_int. }
  pose proof (is_RInt_unique _ _ _ _ P) as E1. pose proof (is_RInt_unique _ _ _ _ Q) as E2. assert (EA : A = PI * (r2 * r2 - r1 * r1)) by congruence. rewrite EA. unfold area_for_circle. unR. rewrite Rabs_minus_sym, Rabs_pos_eq; [reflexivity|]. nra.
Qed.
Lemma ring_moment m r1 r2 A J o : 0 <= r1 < r2 -> ring_integral (fun _ => 1) r1 r2 A -> ring_integral (fun rho => rho * rho) r1 r2 J ->
  moment_for_circle m r1 r2 o = m * J / A + m * norm2 o.
Proof.
  intros L P Pj. assert (EA : A = PI * (r2 * r2 - r1 * r1)).
  { rewrite <- (ring_area r1 r2 A); [|lra|exact P]. unfold area_for_circle. unR. rewrite Rabs_minus_sym, Rabs_pos_eq by nra. reflexivity. }
  assert (Q : ring_integral (fun rho => rho * rho) r1 r2 (PI / 2 * (r2 * r2 * r2 * r2 - r1 * r1 * r1 * r1))).
  { unfold ring_integral. apply (int_ext (fun t => 0 + 0 * t + 0 * (t * t) + (2 * PI) * (t * t * t))); [intros; ring|].
    replace (PI / 2 * (r2 * r2 * r2 * r2 - r1 * r1 * r1 * r1)) with ((0 * r2 + 0 * (r2 * r2 / 2) + 0 * (r2 * r2 * r2 / 3) + 2 * PI * (r2 * r2 * r2 * r2 / 4)) - (0 * r1 + 0 * (r1 * r1 / 2) + 0 * (r1 * r1 * r1 / 3) + 2 * PI * (r1 * r1 * r1 * r1 / 4))) by field. apply poly_int. }
  pose proof (is_RInt_unique _ _ _ _ Pj) as E1. pose proof (is_RInt_unique _ _ _ _ Q) as E2. assert (EJ : J = PI / 2 * (r2 * r2 * r2 * r2 - r1 * r1 * r1 * r1)) by congruence.
  rewrite EA, EJ. unfold moment_for_circle, vlensq, vdot, norm2. unR. pose proof PI_RGT_0. field. split; [nra|lra].
Qed.
