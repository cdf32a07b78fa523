(** Kinetic energy (C123-C125). *)
From Coq Require Import Reals ZArith Bool List Lra Lia Permutation.
From Verif Require Import Num Spec SpecBody SpecSolver SpecStep SpecEnergy.
From Verif.Model Require Import Vector BB Transform Body Solver Step.
From Verif.Proofs Require Import RTac Geom BodyPf SolverPf SolverPf2 SolverPf3 SolverPf4 SolverPf5 StepPf StepMech StepRest.
Import ListNotations.
Local Open Scope R_scope.

Definition E (b : Body R) : R := b_m b * norm2 (b_v b) + b_i b * (b_w b * b_w b).
Definition sound (b : Body R) : Prop := finite_mass b \/ fixed b.
Lemma energy_E b : b_kinetic_energy b = E b.
Proof.
  unfold b_kinetic_energy, E. rewrite !vdot_inner. unR. cbv zeta. replace (inner (b_v b) (b_v b)) with (norm2 (b_v b)) by (unfold inner, norm2; ring).
  destruct (Reqb (norm2 (b_v b)) 0) eqn:E1; destruct (Reqb (b_w b * b_w b) 0) eqn:E2; cbn [negb];
    try apply Reqb_true in E1; try apply Reqb_true in E2; try rewrite E1; try rewrite E2; ring.
Qed.
Lemma sound_conserves a b a' b' : conserves a b a' b' -> sound a -> sound b -> sound a' /\ sound b'.
Proof.
  intros (F1 & F2 & _ & U1 & U2) Ha Hb. split.
  - destruct Ha as [Ha|(Ha & V & W)]; [left; eauto using finite_frame|right]. destruct (U1 Ha) as (V' & W' & _).
    split; [eauto using immovable_frame|]. split; congruence.
  - destruct Hb as [Hb|(Hb & V & W)]; [left; eauto using finite_frame|right]. destruct (U2 Hb) as (V' & W' & _).
    split; [eauto using immovable_frame|]. split; congruence.
Qed.
Lemma sound_inv b : sound b -> 0 <= b_minv b /\ 0 <= b_iinv b.
Proof.
  intros [(M & I & H1 & H2)|((H1 & H2) & _)]; rewrite H1, H2; split; try lra; left; now apply Rinv_0_lt_compat.
Qed.
Lemma E_kick b b' J tau : sound b -> kicked b b' J tau -> E b' = E b + 2 * inner J (b_v b) + 2 * tau * b_w b + norm2 J * b_minv b + b_iinv b * (tau * tau).
Proof.
  intros Hb ->. unfold E. ub. unfold norm2, inner. cbn [vx vy].
  destruct Hb as [(M & I & H1 & H2)|((H1 & H2) & V & W)].
  - rewrite H1, H2. field. lra.
  - rewrite V, W, H1, H2. cbn [vx vy]. ring.
Qed.
Lemma E_push a b r1 r2 J : sound a -> sound b -> let '(a', b') := apply_impulses a b r1 r2 J in
  E a' + E b' = E a + E b + 2 * inner J (closing a b r1 r2) + eff a b r1 r2 J.
Proof.
  intros Ha Hb. pose proof (apply_impulses_kicked a b r1 r2 J) as K. destruct (apply_impulses a b r1 r2 J) as [a' b']. destruct K as [Ka Kb].
  rewrite (E_kick _ _ _ _ Ha Ka), (E_kick _ _ _ _ Hb Kb).
  unfold eff, inner, norm2, closing, point_velocity, vminus, vscale, crossR. cbn [vx vy]. ring.
Qed.
Lemma E_bias a b r1 r2 J : let '(a', b') := apply_bias_impulses a b r1 r2 J in E a' = E a /\ E b' = E b.
Proof. unfold apply_bias_impulses, E. ub. split; reflexivity. Qed.
Lemma E_turn a b j k : sound a -> sound b -> forall a' b', kicked a a' (mkV 0 0) (- (j * k)) -> kicked b b' (mkV 0 0) j ->
  E a' + E b' = E a + E b + 2 * j * (b_w b - b_w a * k) + (b_iinv b + b_iinv a * (k * k)) * (j * j).
Proof.
  intros Ha Hb a' b' Ka Kb. rewrite (E_kick _ _ _ _ Ha Ka), (E_kick _ _ _ _ Hb Kb). unfold inner, norm2. cbn [vx vy]. ring.
Qed.

(** one scalar impulse [x], on the way from 0 to the impulse [-v m] that would stop the motion *)
Lemma toward x v m k : tuned m k -> x * x <= x * (- v * m) -> 2 * x * v + x * x * k <= 0 /\ x * v + x * x * k <= 0.
Proof.
  intros (Hm & Hk) Hx. destruct (Rle_lt_or_eq_dec 0 m Hm) as [P|P].
  - assert (H : x * x * (m * k) <= x * x) by (assert (0 <= x * x) by nra; nra).
    assert (A1 : m * (x * v + x * x * k) <= 0) by nra.
    assert (A2 : x * v + x * x * k <= 0).
    { apply Rnot_lt_le. intro C. assert (0 < m * (x * v + x * x * k)) by (apply Rmult_lt_0_compat; lra). lra. }
    assert (A3 : m * (x * v) <= 0) by nra.
    assert (A4 : x * v <= 0). { apply Rnot_lt_le. intro C. assert (0 < m * (x * v)) by (apply Rmult_lt_0_compat; lra). lra. }
    lra.
  - subst m. assert (x = 0) by nra. subst x. lra.
Qed.
Lemma max_toward old t : 0 <= old -> let x := Rmax (old + t) 0 - old in x * x <= x * t.
Proof. cbv zeta. intros H. unfold Rmax. destruct (Rle_dec (old + t) 0); nra. Qed.
Lemma clamp_toward old t lo hi : lo <= old <= hi -> let x := nclamp (old + t) lo hi - old in x * x <= x * t.
Proof.
  cbv zeta. intros H. rewrite clampR by lra. unfold Rmin, Rmax. repeat destruct (Rle_dec _ _); nra.
Qed.
Lemma abs_range x m : Rabs x <= m -> - m <= x <= m.
Proof. intros H. apply Rabs_def2 in H || (unfold Rabs in H; destruct (Rcase_abs x); lra). Qed.

Lemma Q_eff a b r1 r2 n k : eff a b r1 r2 (vmult n k) = k * k * eff a b r1 r2 n.
Proof. unfold eff, vmult, norm2, crossR. unR. cbn [vx vy]. ring. Qed.
Lemma Q_nonneg a b r1 r2 J : sound a -> sound b -> 0 <= eff a b r1 r2 J.
Proof.
  intros Ha Hb. destruct (sound_inv _ Ha) as [A1 A2], (sound_inv _ Hb) as [B1 B2]. unfold eff.
  assert (0 <= norm2 J) by (unfold norm2; nra).
  assert (0 <= crossR r1 J ^ 2) by (rewrite <- Rsqr_pow2; apply Rle_0_sqr). assert (0 <= crossR r2 J ^ 2) by (rewrite <- Rsqr_pow2; apply Rle_0_sqr).
  assert (0 <= norm2 J * (b_minv a + b_minv b)) by (apply Rmult_le_pos; lra).
  assert (0 <= b_iinv a * crossR r1 J ^ 2) by (apply Rmult_le_pos; lra).
  assert (0 <= b_iinv b * crossR r2 J ^ 2) by (apply Rmult_le_pos; lra). lra.
Qed.
(** normal and tangential impulse together *)
Lemma Q_two a b r1 r2 n x y : sound a -> sound b ->
  eff a b r1 r2 (mkV (vx n * x - vy n * y) (vy n * x + vx n * y)) <= 2 * (x * x * eff a b r1 r2 n) + 2 * (y * y * eff a b r1 r2 (quarter n)).
Proof.
  intros Ha Hb. pose proof (Q_nonneg a b r1 r2 (mkV (vx n * x - vy n * (- y)) (vy n * x + vx n * (- y))) Ha Hb) as H.
  assert (EQ : eff a b r1 r2 (mkV (vx n * x - vy n * y) (vy n * x + vx n * y)) + eff a b r1 r2 (mkV (vx n * x - vy n * (- y)) (vy n * x + vx n * (- y))) =
    2 * (x * x * eff a b r1 r2 n) + 2 * (y * y * eff a b r1 r2 (quarter n))).
  { unfold eff, quarter, norm2, crossR. cbn [vx vy]. ring. }
  lra.
Qed.

Definition cools (a b a' b' : Body R) : Prop := conserves a b a' b' /\ (sound a -> sound b -> E a' + E b' <= E a + E b).
Lemma cools_refl a b : cools a b a b.
Proof. split; [apply conserves_refl|lra]. Qed.
Lemma cools_trans a b c d e f : cools a b c d -> cools c d e f -> cools a b e f.
Proof.
  intros [C1 H1] [C2 H2]. split; [eapply conserves_trans; eauto|]. intros Ha Hb. destruct (sound_conserves _ _ _ _ C1 Ha Hb) as [Hc Hd].
  specialize (H1 Ha Hb). specialize (H2 Hc Hd). lra.
Qed.
Lemma eff_frame a b a' b' r1 r2 n : same_frame a a' -> same_frame b b' -> eff a' b' r1 r2 n = eff a b r1 r2 n.
Proof. intros (_ & H1 & _ & H2 & _) (_ & H3 & _ & H4 & _). unfold eff. now rewrite H1, H2, H3, H4. Qed.
Lemma perp_inner (v n : RV) : vdot v (vperp n) = inner v (quarter n).
Proof. unfold vdot, vperp, inner, quarter; unR; cbn [vx vy]; ring. Qed.
(** one contact: friction impulse so far still within the cone of the new normal impulse *)
Lemma contact_cools n u a b c : 0 <= u -> c_bounce c = 0 -> 0 <= c_jnAcc c ->
  tuned (c_nMass c) (eff a b (c_r1 c) (c_r2 c) n) -> tuned (c_tMass c) (eff a b (c_r1 c) (c_r2 c) (quarter n)) ->
  let '(a', b', c') := contact_step n (mkV 0 0) u a b c in
  (Rabs (c_jtAcc c) <= u * c_jnAcc c' -> cools a b a' b').
Proof.
  intros Hu Hbo Hjn Tn Tt. pose proof (contact_step_conserves n (mkV 0 0) u a b c) as HC. revert HC. unfold contact_step. cbv zeta.
  rewrite closing_eq, perp_inner, rotate_n, Hbo.
  set (X := closing a b (c_r1 c) (c_r2 c)). set (vn := vdot (vadd X (mkV 0 0)) n). set (vt := inner (vadd X (mkV 0 0)) (quarter n)).
  assert (Evn : vn = inner X n) by (unfold vn, vdot, inner, vadd; unR; cbn [vx vy]; ring).
  assert (Evt : vt = inner X (quarter n)) by (unfold vt, inner, vadd; unR; cbn [vx vy]; ring). rewrite Evn, Evt.
  set (jn' := nmax (c_jnAcc c + _)%num _). set (jt' := nclamp _ _ _).
  match goal with |- context [apply_bias_impulses a b ?r1 ?r2 ?J] => pose proof (E_bias a b r1 r2 J) as HE; pose proof (bias_conserves a b r1 r2 J) as HB;
    pose proof (bias_keeps_closing a b r1 r2 J r1 r2) as HK; destruct (apply_bias_impulses a b r1 r2 J) as [a1 b1] end.
  match goal with |- context [apply_impulses a1 b1 ?r1 ?r2 ?J] => pose proof (fun A B => E_push a1 b1 r1 r2 J A B) as HP; destruct (apply_impulses a1 b1 r1 r2 J) as [a2 b2] end.
  intros (HC & _) Hcone. split; [exact HC|]. intros Ha Hb. destruct HB as (CB & _). destruct (sound_conserves _ _ _ _ CB Ha Hb) as [Ha1 Hb1].
  rewrite (HP Ha1 Hb1), HK. destruct HE as [-> ->]. fold X. cbn [c_jnAcc] in Hcone. fold jn' in Hcone.
  pose proof (Q_two a1 b1 (c_r1 c) (c_r2 c) n (jn' - c_jnAcc c) (jt' - c_jtAcc c) Ha1 Hb1) as HQ.
  destruct CB as (F1 & F2 & _). rewrite !(eff_frame a b a1 b1) in HQ by auto. rewrite (eff_frame a b a1 b1) by auto.
  assert (T1 : (jn' - c_jnAcc c) * (jn' - c_jnAcc c) <= (jn' - c_jnAcc c) * (- inner X n * c_nMass c)).
  { unfold jn'. unR. replace (- (0 + inner X n) * c_nMass c) with (- inner X n * c_nMass c) by ring. apply max_toward, Hjn. }
  assert (T2 : (jt' - c_jtAcc c) * (jt' - c_jtAcc c) <= (jt' - c_jtAcc c) * (- inner X (quarter n) * c_tMass c)).
  { unfold jt'. unR. apply clamp_toward. apply abs_range in Hcone. lra. }
  destruct (toward _ _ _ _ Tn T1) as [_ A1]. destruct (toward _ _ _ _ Tt T2) as [_ A2].
  set (x := jn' - c_jnAcc c) in *. set (y := jt' - c_jtAcc c) in *. unR. fold x y.
  replace (inner (mkV (vx n * x - vy n * y) (vy n * x + vx n * y)) X) with (x * inner X n + y * inner X (quarter n)) by (unfold inner, quarter; cbn [vx vy]; ring).
  lra.
Qed.
Lemma contact_calm n u a b c : 0 <= u -> calm_contact n a b c -> let '(a', b', c') := contact_step n (mkV 0 0) u a b c in
  cools a b a' b' /\ (u = 0 -> calm_contact n a b c').
Proof.
  intros Hu (Hb & Hj & Ht & Tn & Tt). pose proof (contact_cools n u a b c Hu Hb Hj Tn Tt) as H.
  assert (J : let '(_, _, c') := contact_step n (mkV 0 0) u a b c in 0 <= c_jnAcc c' /\ (u = 0 -> c_jtAcc c' = 0) /\ c_bounce c' = c_bounce c /\ c_nMass c' = c_nMass c /\ c_tMass c' = c_tMass c /\
     c_r1 c' = c_r1 c /\ c_r2 c' = c_r2 c).
  { unfold contact_step. cbv zeta. destruct (apply_bias_impulses _ _ _ _ _) as [a1 b1]. destruct (apply_impulses _ _ _ _ _) as [a2 b2]. cbn [c_jnAcc c_jtAcc c_bounce c_nMass c_tMass c_r1 c_r2].
    split; [unR; apply Rmax_r|]. split; [|auto 10]. intros ->. unR. rewrite !Rmult_0_l, Ropp_0. rewrite clampR by lra. unfold Rmin, Rmax. repeat destruct (Rle_dec _ _); lra. }
  destruct (contact_step n (mkV 0 0) u a b c) as [[a' b'] c']. destruct J as (J1 & J2 & J3 & J4 & J5 & J6 & J7). split.
  - apply H. rewrite Ht, Rabs_R0. now apply Rmult_le_pos.
  - intros U. unfold calm_contact. rewrite J3, J4, J5, J6, J7. auto.
Qed.
Lemma calm_contact_frame n a b a' b' c : same_frame a a' -> same_frame b b' -> calm_contact n a b c -> calm_contact n a' b' c.
Proof. intros F1 F2. unfold calm_contact. now rewrite !(eff_frame a b a' b') by auto. Qed.
Lemma contacts_calm n u l : 0 <= u -> forall a b, Forall (calm_contact n a b) l -> let '(a', b', l') := contacts_step n (mkV 0 0) u a b l in
  cools a b a' b' /\ (u = 0 -> Forall (calm_contact n a b) l').
Proof.
  intros Hu. induction l as [|c l IH]; intros a b HF; cbn [contacts_step]; [split; [apply cools_refl|auto]|]. inversion HF as [|? ? Hc Hl]; subst.
  pose proof (contact_calm n u a b c Hu Hc) as H1. destruct (contact_step n (mkV 0 0) u a b c) as [[a1 b1] c1]. destruct H1 as [C1 H1].
  assert (F : same_frame a a1 /\ same_frame b b1) by (destruct C1 as [(F1 & F2 & _) _]; auto). destruct F as [F1 F2].
  specialize (IH a1 b1). destruct (contacts_step n (mkV 0 0) u a1 b1 l) as [[a2 b2] l2].
  destruct IH as [C2 H2]. { eapply Forall_impl; [|exact Hl]. intros; eapply calm_contact_frame; eauto. }
  split; [eapply cools_trans; eauto|]. intros U. constructor; auto. eapply Forall_impl; [|exact (H2 U)]. intros.
  assert (S : forall x y, same_frame x y -> same_frame y x) by (intros x y (?&?&?&?&?&?&?&?); unfold same_frame; auto 10).
  eapply (calm_contact_frame n a1 b1); auto.
Qed.
Lemma arb_calm a b arb : calm_arb a b arb -> let '(arb', a', b') := arb_apply_impulse arb a b in cools a b a' b' /\ (ar_u arb = 0 -> ar_u arb' = 0 /\ calm_arb a b arb').
Proof.
  intros (Hu & Hs & HF). unfold arb_apply_impulse. rewrite Hs. pose proof (contacts_calm (ar_n arb) (ar_u arb) (ar_contacts arb) Hu a b HF) as H.
  destruct (contacts_step _ _ _ _ _ _) as [[a' b'] l']. destruct H as [H1 H2]. split; [exact H1|]. intros U. unfold calm_arb, arb_with. cbn [ar_u ar_surf ar_contacts ar_n]. auto.
Qed.

(** ** Joints *)
Lemma push_cools a b r1 r2 n k m : tuned m (eff a b r1 r2 n) -> k * k <= k * (- inner (closing a b r1 r2) n * m) ->
  let '(a', b') := apply_impulses a b r1 r2 (vmult n k) in cools a b a' b'.
Proof.
  intros T H. pose proof (apply_impulses_conserves a b r1 r2 (vmult n k)) as C. pose proof (fun A B => E_push a b r1 r2 (vmult n k) A B) as P.
  destruct (apply_impulses a b r1 r2 (vmult n k)) as [a' b']. split; [exact C|]. intros Ha Hb. rewrite (P Ha Hb), Q_eff.
  replace (inner (vmult n k) (closing a b r1 r2)) with (k * inner (closing a b r1 r2) n) by (unfold inner, vmult; unR; cbn [vx vy]; ring).
  destruct (toward k _ m _ T H) as [G _]. lra.
Qed.
Lemma normal_rel a b r1 r2 n : normal_relative_velocity a b r1 r2 n = inner (closing a b r1 r2) n.
Proof. unfold normal_relative_velocity. now rewrite closing_eq, vdot_inner. Qed.
Lemma turn_cools a b j k m : conserves a b (upd_vel a (b_v a) (b_w a - j * b_iinv a * k)) (upd_vel b (b_v b) (b_w b + j * b_iinv b)) ->
  tuned m (b_iinv b + b_iinv a * (k * k)) -> j * j <= j * (- (b_w b - b_w a * k) * m) ->
  cools a b (upd_vel a (b_v a) (b_w a - j * b_iinv a * k)) (upd_vel b (b_v b) (b_w b + j * b_iinv b)).
Proof.
  intros C T H. split; [exact C|]. intros Ha Hb.
  rewrite (E_turn a b j k Ha Hb).
  - destruct (toward j _ m _ T H) as [G _]. lra.
  - unfold kicked. f_equal; [apply vec_eq; cbn [vx vy]; ring|ring].
  - unfold kicked. f_equal; [apply vec_eq; cbn [vx vy]; ring|ring].
Qed.
Lemma spin_cools a b j m : tuned m (b_iinv a + b_iinv b) -> j * j <= j * (- (b_w b - b_w a) * m) -> let '(a', b') := spin a b j in cools a b a' b'.
Proof.
  intros T H. pose proof (spin_conserves a b j) as [C _]. unfold spin in *. unR.
  replace (b_w a - j * b_iinv a) with (b_w a - j * b_iinv a * 1) in * by ring. apply (turn_cools a b j 1 m); auto.
  - replace (b_iinv b + b_iinv a * (1 * 1)) with (b_iinv a + b_iinv b) by ring. exact T.
  - replace (b_w b - b_w a * 1) with (b_w b - b_w a) by ring. exact H.
Qed.
Lemma pivot_cools a b r1 r2 J : inner J (vplus (closing a b r1 r2) (mobility a b r1 r2 J)) = 0 -> let '(a', b') := apply_impulses a b r1 r2 J in cools a b a' b'.
Proof.
  intros H. pose proof (apply_impulses_conserves a b r1 r2 J) as C. pose proof (fun A B => E_push a b r1 r2 J A B) as P.
  destruct (apply_impulses a b r1 r2 J) as [a' b']. split; [exact C|]. intros Ha Hb. rewrite (P Ha Hb).
  pose proof (Q_nonneg a b r1 r2 J Ha Hb) as N.
  assert (EQ : inner J (mobility a b r1 r2 J) = eff a b r1 r2 J) by (unfold eff, inner, mobility, norm2, crossR; cbn [vx vy]; ring).
  assert (G : inner J (closing a b r1 r2) + eff a b r1 r2 J = 0) by (rewrite <- EQ, <- H; unfold inner, vplus; cbn [vx vy]; ring).
  lra.
Qed.
Definition same_steady (j j' : @Joint R) : Prop := steady j' = steady j.
Lemma joint_calm p dt a b j : sound a -> sound b -> calm_joint p dt a b j -> let '(j', a', b') := j_apply p j dt a b in
  cools a b a' b' /\ (steady j = true -> steady j' = true /\ calm_joint p dt a b j').
Proof.
  intros Ha Hb Hc. destruct j as [j|j|j|j|j|j|j|j|j|j]; cbn [calm_joint j_apply steady] in *.
  - destruct Hc as (B0 & HM & T). unfold pin_apply. cbv zeta. rewrite normal_rel, B0. set (jn := nclamp _ _ _).
    assert (HM' := abs_range _ _ HM).
    assert (X : (jn - pin_jnAcc j) * (jn - pin_jnAcc j) <= (jn - pin_jnAcc j) * (- inner (closing a b (pin_r1 j) (pin_r2 j)) (pin_n j) * pin_nMass j)).
    { unfold jn. unR. replace (0 - inner (closing a b (pin_r1 j) (pin_r2 j)) (pin_n j)) with (- inner (closing a b (pin_r1 j) (pin_r2 j)) (pin_n j)) by ring. apply clamp_toward. lra. }
    pose proof (push_cools _ _ _ _ _ _ _ T X) as P. unR. destruct (apply_impulses _ _ _ _ _) as [a' b']. split; [exact P|]. intros _. cbn [steady calm_joint pin_bias pin_jnAcc pin_nMass pin_r1 pin_r2 pin_n].
    split; auto. split; auto. split; auto. unfold jn. rewrite clampR by (unR; lra). unR. unfold Rmin, Rmax, Rabs. repeat destruct (Rle_dec _ _); destruct (Rcase_abs _); lra.
  - destruct Hc as (B0 & HP & HK & HL). unfold pivot_apply. cbv zeta. rewrite closing_eq, B0.
    set (X := closing a b (piv_r1 j) (piv_r2 j)) in *.
    replace (vsub (mkV 0 0) X) with (vscale (-1) X) by (unfold vsub, vscale; unR; apply vec_eq; cbn [vx vy]; ring).
    set (im := mat_transform (piv_k j) (vscale (-1) X)) in *.
    change (vadd (piv_jAcc j) im) with (vplus (piv_jAcc j) im). rewrite vclamp_short by exact HL.
    replace (vsub (vplus (piv_jAcc j) im) (piv_jAcc j)) with im by (unfold vsub, vplus; unR; apply vec_eq; cbn [vx vy]; ring).
    destruct (sound_inv _ Ha) as [A1 A2], (sound_inv _ Hb) as [B1 B2].
    pose proof (pivot_cools a b (piv_r1 j) (piv_r2 j) im) as P. destruct (apply_impulses _ _ _ _ _) as [a' b']. split; [|discriminate]. apply P.
    unfold im at 2. rewrite HK, k_tensor_mobility; [|apply Rgt_not_eq, k_tensor_det; auto]. fold X. unfold inner, vplus, vscale; cbn [vx vy]. ring.
  - destruct Hc as (B0 & HM & T). unfold slide_apply. destruct (vequal (sl_n j) vzero) eqn:Z; [split; [apply cools_refl|cbn [steady calm_joint]; auto]|]. cbv zeta. rewrite closing_eq, vdot_inner, B0. set (jn := nclamp _ _ _).
    assert (X : (jn - sl_jnAcc j) * (jn - sl_jnAcc j) <= (jn - sl_jnAcc j) * (- inner (closing a b (sl_r1 j) (sl_r2 j)) (sl_n j) * sl_nMass j)).
    { unfold jn. unR. replace (0 - inner (closing a b (sl_r1 j) (sl_r2 j)) (sl_n j)) with (- inner (closing a b (sl_r1 j) (sl_r2 j)) (sl_n j)) by ring. apply clamp_toward. lra. }
    pose proof (push_cools _ _ _ _ _ _ _ T X) as P. unR. destruct (apply_impulses _ _ _ _ _) as [a' b']. split; [exact P|]. intros _. cbn [steady calm_joint sl_bias sl_jnAcc sl_nMass sl_r1 sl_r2 sl_n].
    split; auto. split; auto. split; auto. unfold jn. rewrite clampR by (unR; lra). unR. unfold Rmin, Rmax. repeat destruct (Rle_dec _ _); lra.
  - contradiction.
  - destruct Hc as (B0 & HR & HI & HM & T). unfold gear_apply. cbv zeta. rewrite B0. set (jn := nclamp _ _ _). assert (HM' := abs_range _ _ HM).
    pose proof (gear_conserves a b (jn - ge_jAcc j) (ge_ratio_inv j)) as [C _]. unfold gear_spin in *. unR.
    destruct (sound_inv _ Ha) as [_ A2], (sound_inv _ Hb) as [_ B2].
    set (r := ge_ratio j) in *. set (ri := ge_ratio_inv j) in *.
    assert (RI : r * ri = 1) by (rewrite HI; field; exact HR).
    assert (KK : b_iinv a * ri + r * b_iinv b = r * (b_iinv b + b_iinv a * (ri * ri))).
    { transitivity (r * b_iinv b + b_iinv a * (ri * (r * ri))); [rewrite RI; ring|ring]. }
    assert (K0 : 0 <= b_iinv b + b_iinv a * (ri * ri)) by (assert (0 <= b_iinv a * (ri * ri)) by (apply Rmult_le_pos; nra); lra).
    split.
    + apply (turn_cools a b (jn - ge_jAcc j) ri (ge_iSum j * r)); auto.
      * rewrite T, KK. unfold tuned. set (k := b_iinv b + b_iinv a * (ri * ri)) in *. destruct (Rle_lt_or_eq_dec 0 k K0) as [P|P].
        -- replace (1 / (r * k) * r) with (/ k) by (field; split; lra). split; [left; now apply Rinv_0_lt_compat|]. rewrite Rinv_l; lra.
        -- rewrite <- P, Rmult_0_r. unfold Rdiv. rewrite Rinv_0. lra.
      * replace (- (b_w b - b_w a * ri) * (ge_iSum j * r)) with ((0 - (b_w b * r - b_w a * (r * ri))) * ge_iSum j) by ring.
        rewrite RI, Rmult_1_r. unfold jn. unR. apply clamp_toward. lra.
    + intros _. cbn [steady calm_joint ge_bias ge_ratio ge_ratio_inv ge_jAcc ge_iSum]. splits; auto.
      unfold jn. rewrite clampR by (unR; lra). unR. unfold Rmin, Rmax, Rabs. repeat destruct (Rle_dec _ _); destruct (Rcase_abs _); lra.
  - unfold ratchet_apply. rewrite Hc. replace (0 =? nzero)%num with true by (symmetry; unR; now apply Reqb_true). split; [apply cools_refl|cbn [steady calm_joint]; auto].
  - unfold rotary_apply. rewrite Hc. replace (0 =? nzero)%num with true by (symmetry; unR; now apply Reqb_true). split; [apply cools_refl|cbn [steady calm_joint]; auto].
  - destruct Hc as (B0 & HM & T). unfold motor_apply. cbv zeta. rewrite B0. set (jn := nclamp _ _ _). assert (HM' := abs_range _ _ HM).
    assert (X : (jn - mo_jAcc j) * (jn - mo_jAcc j) <= (jn - mo_jAcc j) * (- (b_w b - b_w a) * mo_iSum j)).
    { unfold jn. unR. replace (b_w b - b_w a + 0) with (b_w b - b_w a) by ring. apply clamp_toward. lra. }
    pose proof (spin_cools a b _ _ T X) as P. unR. destruct (spin _ _ _) as [a' b']. split; [exact P|]. intros _. cbn [steady calm_joint mo_rate mo_jAcc mo_iSum].
    splits; auto. unfold jn. rewrite clampR by (unR; lra). unR. unfold Rmin, Rmax, Rabs. repeat destruct (Rle_dec _ _); destruct (Rcase_abs _); lra.
  - destruct Hc as (B0 & HV & T). unfold spring_apply. cbv zeta. rewrite normal_rel, B0. unR.
    match goal with |- context [apply_impulses a b _ _ (vmult _ ?J)] => pose proof (push_cools a b (sp_r1 j) (sp_r2 j) (sp_n j) J (sp_nMass j) T) as P end.
    destruct (apply_impulses _ _ _ _ _) as [a' b']. split; [|discriminate]. apply P.
    set (v := inner _ _). destruct T as [T _]. replace ((0 - v) * sp_vCoef j * sp_nMass j) with (sp_vCoef j * (- v * sp_nMass j)) by ring.
    set (t := - v * sp_nMass j). replace (sp_vCoef j * t * (sp_vCoef j * t)) with (sp_vCoef j * (sp_vCoef j * (t * t))) by ring. replace (sp_vCoef j * t * t) with (sp_vCoef j * (t * t)) by ring.
    assert (0 <= t * t) by nra. assert (0 <= sp_vCoef j * (t * t)) by (apply Rmult_le_pos; lra). nra.
  - destruct Hc as (B0 & HV & T). unfold rspring_apply. cbv zeta. rewrite B0. split; [|discriminate].
    set (jd := ((nsub 0 (nsub (b_w a) (b_w b)) * rs_wCoef j) * rs_iSum j)%num).
    pose proof (spin_cools a b (- jd) (rs_iSum j) T) as P. unfold unspin, spin in *. unR.
    replace (b_w a + jd * b_iinv a) with (b_w a - - jd * b_iinv a) by ring. replace (b_w b - jd * b_iinv b) with (b_w b + - jd * b_iinv b) by ring. apply P.
    unfold jd. unR. set (v := b_w b - b_w a). replace (0 - (b_w a - b_w b)) with v by (unfold v; ring).
    set (t := - v * rs_iSum j). replace (- (v * rs_wCoef j * rs_iSum j)) with (rs_wCoef j * t) by (unfold t; ring).
    replace (rs_wCoef j * t * (rs_wCoef j * t)) with (rs_wCoef j * (rs_wCoef j * (t * t))) by ring. replace (rs_wCoef j * t * t) with (rs_wCoef j * (t * t)) by ring.
    assert (0 <= t * t) by nra. assert (0 <= rs_wCoef j * (t * t)) by (apply Rmult_le_pos; lra). nra.
Qed.

(** ** Worlds *)
Lemma total_E w ids : total_energy w ids = fold_right (fun i s => E (w i) + s) 0 ids.
Proof. unfold total_energy. induction ids; cbn [fold_right]; auto. now rewrite energy_E, IHids. Qed.
Lemma E_perm (w : world) (l l' : list nat) : Permutation l l' -> fold_right (fun i s => E (w i) + s) 0 l = fold_right (fun i s => E (w i) + s) 0 l'.
Proof. induction 1; cbn [fold_right]; lra. Qed.
Lemma E_ext (w w' : world) (ids : list nat) : (forall i, In i ids -> w i = w' i) -> fold_right (fun i s => E (w i) + s) 0 ids = fold_right (fun i s => E (w' i) + s) 0 ids.
Proof. induction ids; intros H; cbn [fold_right]; auto. rewrite (H a) by (left; auto). rewrite IHids; auto. intros; apply H; right; auto. Qed.
Definition cooler (ids : list nat) (w w' : world) : Prop :=
  mechanical w' ids /\ total_energy w' ids <= total_energy w ids /\ forall i, same_frame (w i) (w' i).
Lemma cooler_refl ids w : mechanical w ids -> cooler ids w w.
Proof. intros H. split; auto. split; [lra|]. intros; apply same_frame_refl. Qed.
Lemma cooler_trans ids w w' w'' : cooler ids w w' -> cooler ids w' w'' -> cooler ids w w''.
Proof. intros (A1 & A2 & A3) (B1 & B2 & B3). split; auto. split; [lra|]. intros. eapply same_frame_trans; eauto. Qed.
Lemma set2_cooler ids (w : world) i k a b : mechanical w ids -> i <> k -> In i ids -> In k ids -> cools (w i) (w k) a b ->
  cooler ids w (set_body (set_body w i a) k b).
Proof.
  intros [ND HM] Hne Hi Hk [C HE]. pose proof (HM i Hi) as Si. pose proof (HM k Hk) as Sk.
  destruct (sound_conserves _ _ _ _ C Si Sk) as [Sa Sb]. specialize (HE Si Sk).
  assert (Vi : set_body (set_body w i a) k b i = a) by (rewrite set_other, set_same; auto).
  assert (Vk : set_body (set_body w i a) k b k = b) by apply set_same.
  assert (Vo : forall l, l <> i -> l <> k -> set_body (set_body w i a) k b l = w l) by (intros; rewrite !set_other; auto).
  split; [|split].
  - split; auto. intros l Hl. destruct (Nat.eq_dec l i) as [->|N1]; [now rewrite Vi|]. destruct (Nat.eq_dec l k) as [->|N2]; [now rewrite Vk|]. rewrite Vo; auto.
  - rewrite !total_E. destruct (split2 i k ids ND Hi Hk Hne) as (rest & P & N1 & N2). rewrite (E_perm _ _ _ P), (E_perm w _ _ P). cbn [fold_right].
    rewrite Vi, Vk. rewrite (E_ext (set_body (set_body w i a) k b) w rest); [lra|]. intros l Hl. apply Vo; intros ->; auto.
  - destruct C as (F1 & F2 & _). intros l. destruct (Nat.eq_dec l i) as [->|N1]; [now rewrite Vi|]. destruct (Nat.eq_dec l k) as [->|N2]; [now rewrite Vk|]. rewrite Vo; auto. apply same_frame_refl.
Qed.
Lemma act_calm x a b : sound a -> sound b -> calm a b x -> let '(a', b') := act x a b in cools a b a' b'.
Proof.
  intros Ha Hb. destruct x as [arb|arb k|p j dt|j k|p j dt]; cbn [calm act].
  - intros H. pose proof (arb_calm a b arb H) as G. destruct (arb_apply_impulse arb a b) as [[arb' a'] b']. apply G.
  - intros ->. assert (E0 : arb_apply_cached arb 0 a b = (a, b)).
    { unfold arb_apply_cached. assert (G : forall l (p : Body R * Body R), fold_left (fun '(a0, b0) con => apply_impulses a0 b0 (c_r1 con) (c_r2 con) (vmult (vrotate (ar_n arb) (mkV (c_jnAcc con) (c_jtAcc con))) 0)) l p = p).
      { induction l as [|c l IH]; intros [a0 b0]; cbn [fold_left]; auto. rewrite IH. clear IH. match goal with |- context [vmult ?v 0] => replace (vmult v 0) with (mkV 0 0) end; [apply impulses_zero|].
        unfold vmult; unR; apply vec_eq; cbn [vx vy]; ring. }
      destruct (ar_state arb); auto; apply G. }
    rewrite E0. apply cools_refl.
  - intros H. destruct j; cbn [is_spring j_prestep] in *; try discriminate; apply cools_refl.
  - intros ->. assert (V0 : forall v : RV, vmult v 0 = mkV 0 0) by (intros v; unfold vmult; unR; apply vec_eq; cbn [vx vy]; ring).
    assert (E0 : j_cached j 0 a b = (a, b)).
    { destruct j as [j|j|j|j|j|j|j|j|j|j]; cbn [j_cached]; unR; rewrite ?Rmult_0_r, ?V0, ?impulses_zero; auto; unfold gear_spin, spin; unR; f_equal;
      match goal with |- upd_vel ?x _ _ = ?x => transitivity (upd_vel x (b_v x) (b_w x)); [f_equal; ring|apply upd_vel_same] end. }
    rewrite E0. apply cools_refl.
  - intros H. pose proof (joint_calm p dt a b j Ha Hb H) as G. destruct (j_apply p j dt a b) as [[j' a'] b']. apply G.
Qed.
Lemma acts_cooler ids l : forall w, mechanical w ids -> Forall (act_ok ids) l -> all_calm w l -> cooler ids w (acts w l).
Proof.
  induction l as [|[[i k] x] l IH]; intros w HM HO HC; cbn [acts fold_left]; [now apply cooler_refl|].
  inversion HO as [|? ? O1 O2]; subst. destruct HC as [C1 C2]. destruct O1 as (Hne & Hi & Hk).
  assert (S : cooler ids w (act_on w (i, k, x))).
  { unfold act_on. pose proof (act_calm x (w i) (w k) (proj2 HM i Hi) (proj2 HM k Hk) C1) as G. destruct (act x (w i) (w k)) as [a b]. now apply set2_cooler. }
  eapply cooler_trans; [exact S|]. apply IH; auto. apply S.
Qed.

(** ** The loop of the solver *)
Section Loop.
Context {X : Type} (f : X -> Body R -> Body R -> X * Body R * Body R) (P P' : Body R -> Body R -> X -> Prop).
Hypothesis step_ok : forall x a b, sound a -> sound b -> P a b x -> let '(x', a', b') := f x a b in cools a b a' b' /\ P' a b x'.
Hypothesis frP : forall a b a' b' x, same_frame a a' -> same_frame b b' -> P a b x -> P a' b' x.
Hypothesis frP' : forall a b a' b' x, same_frame a a' -> same_frame b b' -> P' a b x -> P' a' b' x.
Lemma each_link_cooler ids l : forall w : @store R, mechanical w ids -> between ids l -> (forall i k x, In (i, k, x) l -> P (w i) (w k) x) ->
  let '(w', l') := each_link f l w in cooler ids w w' /\ between ids l' /\ (forall i k x, In (i, k, x) l' -> P' (w' i) (w' k) x).
Proof.
  induction l as [|[[i k] x] l IH]; intros w HM HB HP; cbn [each_link].
  { split; [now apply cooler_refl|]. split; [intros ? ? ? []|intros ? ? ? []]. }
  destruct (HB i k x (or_introl eq_refl)) as (Hne & Hi & Hk).
  pose proof (step_ok x (w i) (w k) (proj2 HM i Hi) (proj2 HM k Hk) (HP i k x (or_introl eq_refl))) as G.
  destruct (f x (w i) (w k)) as [[x' a] b]. destruct G as [G1 G2].
  pose proof (set2_cooler ids w i k a b HM Hne Hi Hk G1) as S. change (set_body (set_body w i a) k b) with (put (put w i a) k b) in S.
  specialize (IH (put (put w i a) k b)). destruct (each_link f l (put (put w i a) k b)) as [w' l'].
  destruct IH as (I1 & I2 & I3).
  - apply S.
  - intros i0 k0 x0 H0. apply (HB i0 k0 x0). now right.
  - intros i0 k0 x0 H0. destruct S as (_ & _ & F). eapply frP; [apply F|apply F|]. apply HP. now right.
  - split; [eapply cooler_trans; eauto|]. split.
    + intros i0 k0 x0 [H0|H0]; [injection H0 as <- <- <-; auto|eauto].
    + intros i0 k0 x0 [H0|H0]; [injection H0 as <- <- <-|eauto].
      destruct (cooler_trans _ _ _ _ S I1) as (_ & _ & F). eapply frP'; [apply F|apply F|exact G2].
Qed.
End Loop.
Definition smoothP (a b : Body R) (arb : Arb R) : Prop := ar_u arb = 0 /\ calm_arb a b arb.
Definition slackP (dt : R) (a b : Body R) (c : @Params R * @Joint R) : Prop := let '(p, j) := c in steady j = true /\ calm_joint p dt a b j.
Lemma smoothP_frame a b a' b' x : same_frame a a' -> same_frame b b' -> smoothP a b x -> smoothP a' b' x.
Proof.
  intros F1 F2 (U & U' & S & H). split; auto. split; auto. split; auto. eapply Forall_impl; [|exact H]. intros; eapply calm_contact_frame; eauto.
Qed.
Lemma slackP_frame dt a b a' b' x : same_frame a a' -> same_frame b b' -> slackP dt a b x -> slackP dt a' b' x.
Proof.
  intros F1 F2. destruct x as [p j]. intros [S H]. split; auto. destruct j; cbn [steady calm_joint] in *; try discriminate; auto; rewrite ?(eff_frame a b a' b') by auto; auto;
  destruct F1 as (_ & _ & _ & E1 & _), F2 as (_ & _ & _ & E2 & _); rewrite E1, E2; auto.
Qed.
Lemma smooth_solve x a b : sound a -> sound b -> smoothP a b x -> let '(x', a', b') := arb_apply_impulse x a b in cools a b a' b' /\ smoothP a b x'.
Proof.
  intros Ha Hb (U & H). pose proof (arb_calm a b x H) as G. destruct (arb_apply_impulse x a b) as [[x' a'] b']. destruct G as [G1 G2]. split; auto. split; apply G2, U.
Qed.
Lemma slack_solve dt x a b : sound a -> sound b -> slackP dt a b x -> let '(x', a', b') := solve_con dt x a b in cools a b a' b' /\ slackP dt a b x'.
Proof.
  intros Ha Hb. destruct x as [p j]. intros (S & H). unfold solve_con. pose proof (joint_calm p dt a b j Ha Hb H) as G. destruct (j_apply p j dt a b) as [[j' a'] b']. destruct G as [G1 G2]. split; auto. apply G2, S.
Qed.
Lemma iterate_cooler ids dt n : forall (w : @store R) arbs js, mechanical w ids -> between ids arbs -> between ids js ->
  Forall (smooth w) arbs -> Forall (slack dt w) js -> cooler ids w (fst (fst (iterate dt n (w, arbs, js)))).
Proof.
  induction n as [|n IH]; intros w arbs js HM B1 B2 H1 H2; cbn [iterate fst]; [now apply cooler_refl|].
  pose proof (each_link_cooler arb_apply_impulse smoothP smoothP smooth_solve smoothP_frame smoothP_frame ids arbs w HM B1) as L1.
  destruct (each_link arb_apply_impulse arbs w) as [w1 arbs1]. destruct L1 as (C1 & B1' & H1').
  { intros i k x Hx. rewrite Forall_forall in H1. exact (H1 _ Hx). }
  pose proof (each_link_cooler (solve_con dt) (slackP dt) (slackP dt) (slack_solve dt) (slackP_frame dt) (slackP_frame dt) ids js w1 (proj1 C1) B2) as L2.
  destruct (each_link (solve_con dt) js w1) as [w2 js2]. destruct L2 as (C2 & B2' & H2').
  { intros i k x Hx. rewrite Forall_forall in H2. destruct C1 as (_ & _ & F). eapply slackP_frame; [apply F|apply F|]. specialize (H2 _ Hx). destruct x. exact H2. }
  eapply cooler_trans; [eapply cooler_trans; [exact C1|exact C2]|]. apply IH; auto; [apply C2| |].
  - apply Forall_forall. intros [[i k] x] Hx. destruct C2 as (_ & _ & F). exact (smoothP_frame _ _ _ _ _ (F i) (F k) (H1' _ _ _ Hx)).
  - apply Forall_forall. intros [[i k] [p j]] Hx. exact (H2' _ _ _ Hx).
Qed.

(** ** Whole steps *)
Lemma E_nonneg b : sound b -> 0 <= E b.
Proof.
  unfold E. assert (N : 0 <= norm2 (b_v b)) by (unfold norm2; nra). assert (W : 0 <= b_w b * b_w b) by nra.
  intros [(M & I & _)|(_ & V & Z)].
  - assert (0 <= b_m b * norm2 (b_v b)) by (apply Rmult_le_pos; lra). assert (0 <= b_i b * (b_w b * b_w b)) by (apply Rmult_le_pos; lra). lra.
  - rewrite V, Z. unfold norm2; cbn [vx vy]. lra.
Qed.
Lemma position_E b dt : sound b -> sound (b_update_position b dt) /\ E (b_update_position b dt) = E b.
Proof. intros H. split; [|reflexivity]. exact H. Qed.
Lemma velocity_E b d dt : sound b -> b_f b = mkV 0 0 -> b_t b = 0 -> 0 <= d <= 1 -> let b' := b_update_velocity b (mkV 0 0) d dt in
  sound b' /\ E b' <= E b /\ same_frame b b' /\ b_f b' = mkV 0 0 /\ b_t b' = 0.
Proof.
  intros S F T0 D. cbv zeta. unfold b_update_velocity. destruct (is_kinematic b); [splits; auto; [lra|apply same_frame_refl]|].
  rewrite F, T0. set (v := vadd _ _). set (x := (_ + _)%num).
  assert (Ev : v = vscale d (b_v b)) by (unfold v, vadd, vmult, vscale; unR; apply vec_eq; cbn [vx vy]; ring).
  assert (Ex : x = d * b_w b) by (unfold x; unR; ring). rewrite Ev, Ex.
  assert (EQ : E (upd_force (upd_vel b (vscale d (b_v b)) (d * b_w b)) vzero nzero) = d * d * E b) by (unfold E, norm2, vscale; ub; cbn [vx vy]; ring).
  pose proof (E_nonneg b S) as N. splits.
  - destruct S as [S|(I & V & W)]; [left; exact S|right]. split; [exact I|]. ub. rewrite V, W. split; [unfold vscale; apply vec_eq; cbn [vx vy]; ring|ring].
  - rewrite EQ. assert (d * d <= 1) by nra. nra.
  - unfold same_frame. ub. auto 10.
  - reflexivity.
  - reflexivity.
Qed.
Lemma each_body_point (f : Body R -> Body R) (Pr : nat -> Body R -> Prop) l : (forall i b, Pr i b -> Pr i (f b)) -> forall w : @store R, (forall i, Pr i (w i)) -> forall i, Pr i (each_body f l w i).
Proof.
  intros Hf. unfold each_body. induction l as [|k l IH]; intros w Hw i; cbn [fold_left]; auto. apply IH. intros i0. unfold put. destruct (Nat.eqb_spec i0 k); subst; auto.
Qed.
Lemma total_le (w w' : world) (ids : list nat) : (forall i, In i ids -> E (w' i) <= E (w i)) -> total_energy w' ids <= total_energy w ids.
Proof. intros H. rewrite !total_E. induction ids as [|i l IH]; cbn [fold_right]; [lra|]. pose proof (H i (or_introl eq_refl)). assert (forall j, In j l -> E (w' j) <= E (w j)) by (intros; apply H; now right). specialize (IH H1). lra. Qed.
Lemma k_scalar_tuned a b r1 r2 n : norm2 n <= 1 -> sound a -> sound b -> tuned (1 / k_scalar a b r1 r2 n) (eff a b r1 r2 n).
Proof.
  intros N Ha Hb. destruct (sound_inv _ Ha) as [A1 A2], (sound_inv _ Hb) as [B1 B2].
  destruct (k_scalar_eff_near a b r1 r2 n N A1 B1 A2 B2) as [L U]. set (k := k_scalar a b r1 r2 n) in *.
  pose proof (Q_nonneg a b r1 r2 n Ha Hb) as P. unfold tuned. destruct (Rle_lt_or_eq_dec 0 k ltac:(lra)) as [K|K].
  - assert (0 < / k) by now apply Rinv_0_lt_compat. unfold Rdiv. rewrite Rmult_1_l. split; [lra|]. rewrite <- (Rinv_l k) by lra. apply Rmult_le_compat_l; lra.
  - rewrite <- K. unfold Rdiv. rewrite Rinv_0. lra.
Qed.
Definition zeroP (a b : Body R) (arb : Arb R) : Prop := smoothP a b arb /\ Forall (fun c => c_jnAcc c = 0 /\ c_jtAcc c = 0) (ar_contacts arb).
Lemma arb_prepared se dt arb a b : sound a -> sound b -> smooth_arbiter arb -> zeroP a b (arb_prestep arb dt (se_slop se) (none_ - npow (se_bias se) dt)%num a b).
Proof.
  intros Ha Hb (He & Hu & Hs & Hn & HF). unfold zeroP, smoothP, calm_arb, arb_prestep, arb_with. cbn [ar_u ar_surf ar_n ar_contacts]. rewrite Hu.
  split; [split; [reflexivity|]; split; [lra|]; split; [exact Hs|]|].
  - rewrite Forall_map. eapply Forall_impl; [|exact HF]. intros c (H1 & H2). unfold calm_contact, con_prestep. cbn [c_bounce c_jnAcc c_jtAcc c_nMass c_tMass c_r1 c_r2].
    rewrite H1, H2, He. splits; try (unR; lra).
    + exact (k_scalar_tuned a b _ _ _ Hn Ha Hb).
    + replace (vperp (ar_n arb)) with (quarter (ar_n arb)) by (unfold quarter, vperp; unR; reflexivity).
      apply k_scalar_tuned; auto. unfold norm2, quarter in *; cbn [vx vy]. lra.
  - rewrite Forall_map. eapply Forall_impl; [|exact HF]. intros c H. exact H.
Qed.
Lemma cached_zero k arb a b : zeroP a b arb -> arb_apply_cached arb k a b = (a, b).
Proof.
  intros (_ & HF). unfold arb_apply_cached.
  assert (G : forall l, Forall (fun c : Contact R => c_jnAcc c = 0 /\ c_jtAcc c = 0) l -> fold_left (fun '(a0, b0) con => apply_impulses a0 b0 (c_r1 con) (c_r2 con) (vmult (vrotate (ar_n arb) (mkV (c_jnAcc con) (c_jtAcc con))) k)) l (a, b) = (a, b)).
  { induction l as [|c l IH]; intros H; cbn [fold_left]; auto. inversion H as [|? ? [H1 H2] H3]; subst. rewrite H1, H2, rotate_n.
    replace (vmult (mkV (vx (ar_n arb) * 0 - vy (ar_n arb) * 0) (vy (ar_n arb) * 0 + vx (ar_n arb) * 0)) k) with (mkV 0 0) by (unfold vmult; unR; apply vec_eq; cbn [vx vy]; ring).
    rewrite impulses_zero. auto. }
  destruct (ar_state arb); auto; apply G, HF.
Qed.
Lemma bias_zero1 dt x : - bias_coef (1 : R) dt * x / dt = 0.
Proof.
  unfold bias_coef. assert (N : npow (1 : R) dt = 1) by (unR; unfold Rpower; rewrite ln_1, Rmult_0_r; apply exp_0). rewrite N. unR. unfold Rdiv. ring.
Qed.
Lemma clamp_zero m : 0 <= m -> nclamp (0 : R) (- m) m = 0.
Proof. intros. rewrite clampR by lra. unfold Rmin, Rmax. repeat destruct (Rle_dec _ _); lra. Qed.
Definition accZero (j : @Joint R) : Prop := match j with JPin j => pin_jnAcc j = 0 | JSlide j => sl_jnAcc j = 0 | JGear j => ge_jAcc j = 0
  | JRatchet j => ra_jAcc j = 0 | JRotary j => ro_jAcc j = 0 | JMotor j => mo_jAcc j = 0 | _ => False end.
Definition zeroJ (dt : R) (a b : Body R) (c : @Params R * @Joint R) : Prop := slackP dt a b c /\ accZero (snd c).
Lemma norm2_scaled (v : RV) k : norm2 (vmult v k) = k * k * norm2 v.
Proof. unfold norm2, vmult; unR; cbn [vx vy]; ring. Qed.
Lemma isum_tuned a b : sound a -> sound b -> tuned (1 / (b_iinv a + b_iinv b)) (b_iinv a + b_iinv b).
Proof.
  intros Ha Hb. destruct (sound_inv _ Ha) as [_ A2], (sound_inv _ Hb) as [_ B2]. unfold tuned. destruct (Rle_lt_or_eq_dec 0 (b_iinv a + b_iinv b) ltac:(lra)) as [K|K].
  - split; [unfold Rdiv; rewrite Rmult_1_l; left; now apply Rinv_0_lt_compat|]. right. field. lra.
  - rewrite <- K. unfold Rdiv. rewrite Rinv_0. lra.
Qed.
Lemma normalize_norm2 (v : RV) : norm2 (vnormalize v) <= 1.
Proof.
  rewrite <- norm_sq, normalize_norm. pose proof (norm_nonneg v). set (e := 1 / 1000000000000000) in *. assert (0 < e) by (unfold e; lra). clearbody e.
  assert (0 <= norm v / (norm v + e) <= 1).
  { split; [apply Rmult_le_pos; [lra|left; apply Rinv_0_lt_compat; lra]|]. apply (Rmult_le_reg_r (norm v + e)); [lra|]. unfold Rdiv. rewrite Rmult_assoc, Rinv_l by lra. lra. }
  nra.
Qed.
Lemma joint_prepared dt c a b : 0 < dt -> sound a -> sound b -> slack_joint c ->
  let '(c', a', b') := prestep_con dt c a b in a' = a /\ b' = b /\ zeroJ dt a b c'.
Proof.
  intros Hdt Ha Hb. destruct c as [p j]. intros (HM & HE & HB & Hj). unfold prestep_con.
  assert (M0 : 0 <= maxForce p * dt) by (apply Rmult_le_pos; lra).
  assert (BZ : forall x, nclamp (- bias_coef (errorBias p) dt * x / dt)%num (- maxBias p)%num (maxBias p) = 0).
  { intros x. rewrite HE. pose proof (bias_zero1 dt x) as Z. unR. rewrite Z. now apply clamp_zero. }
  destruct j as [j|j|j|j|j|j|j|j|j|j]; cbn [j_prestep]; try contradiction; (split; [reflexivity|]; split; [reflexivity|]); unfold zeroJ, slackP; cbn [snd accZero steady calm_joint].
  - unfold pin_prestep. cbv zeta. cbn [pin_bias pin_jnAcc pin_nMass pin_r1 pin_r2 pin_n]. rewrite BZ, Hj, Rabs_R0. splits; auto.
    apply k_scalar_tuned; auto.
    match goal with |- context [vlen ?d] => set (delta := d) end. rewrite vlen_norm. unR. destruct (Reqb (norm delta) 0) eqn:Z; cbn [negb].
    + apply Reqb_true in Z. apply norm_pos_iff in Z. rewrite Z, norm2_scaled. unfold norm2; cbn [vx vy]. lra.
    + apply Reqb_false in Z. rewrite norm2_scaled, <- norm_sq. right. field. exact Z.
  - unfold slide_prestep. cbv zeta. match goal with |- context [vlen ?d] => set (delta := d) end.
    assert (N0 : norm2 (@vzero R _) <= 1) by (unfold norm2, vzero; unR; cbn [vx vy]; lra).
    assert (Nn : norm2 (vneg (vnormalize delta)) <= 1) by (pose proof (normalize_norm2 delta) as N; unfold norm2, vneg in *; unR; cbn [vx vy]; lra).
    destruct (sl_max j <? vlen delta)%num; [|destruct (vlen delta <? sl_min j)%num]; cbn [sl_bias sl_jnAcc sl_nMass sl_r1 sl_r2 sl_n]; rewrite BZ; rewrite ?Hj; splits; auto; try (unR; lra); apply k_scalar_tuned; auto using normalize_norm2.
  - destruct Hj as (R1 & R2 & R3). unfold gear_prestep. cbn [ge_bias ge_ratio ge_ratio_inv ge_jAcc ge_iSum]. rewrite BZ, R3, Rabs_R0. splits; auto.
  - unfold ratchet_prestep. cbv zeta. destruct (if nltb nzero _ then _ else _) as [pd an]. cbn [ra_bias ra_jAcc]. rewrite BZ, Hj. splits; auto. now destruct (_ =? _)%num.
  - unfold rotary_prestep. cbv zeta. cbn [ro_bias ro_jAcc]. rewrite BZ, Hj. splits; auto. now destruct (_ =? _)%num.
  - destruct Hj as (R1 & R2). unfold motor_prestep. cbn [mo_rate mo_jAcc mo_iSum]. rewrite R1, R2, Rabs_R0. splits; auto. now apply isum_tuned.
Qed.
Lemma cached_zeroJ k dt c a b : zeroJ dt a b c -> cached_con k c a b = (c, a, b).
Proof.
  destruct c as [p j]. intros (_ & H). unfold cached_con. cbn [snd] in *.
  assert (V0 : forall v : RV, vmult v 0 = mkV 0 0) by (intros v; unfold vmult; unR; apply vec_eq; cbn [vx vy]; ring).
  assert (E0 : j_cached j k a b = (a, b)).
  { destruct j as [j|j|j|j|j|j|j|j|j|j]; cbn [j_cached accZero] in *; try contradiction; unR; rewrite H, Rmult_0_l, ?V0, ?impulses_zero; auto; unfold gear_spin, spin; unR; f_equal;
    match goal with |- upd_vel ?x _ _ = ?x => transitivity (upd_vel x (b_v x) (b_w x)); [f_equal; ring|apply upd_vel_same] end. }
  now rewrite E0.
Qed.
Lemma damp_range d dt : 0 < d <= 1 -> 0 < dt -> 0 <= npow (d : R) dt <= 1.
Proof.
  intros Hd Hdt. unR. unfold Rpower. split; [left; apply exp_pos|]. rewrite <- exp_0. assert (ln d <= 0) by (rewrite <- ln_1; destruct (Rle_lt_or_eq_dec d 1 (proj2 Hd)) as [L|L]; [left; apply ln_increasing; lra|rewrite L; lra]).
  assert (L : dt * ln d <= 0) by nra. destruct L as [L|L]; [left; now apply exp_increasing|rewrite L; lra].
Qed.
Lemma step_cooler se ids (s : Scene R) e : 0 < ev_dt e -> mechanical (sc_body s) ids -> undriven se s ids ->
  between ids (ev_arbs e) -> between ids (ev_cons e) -> (forall i k x, In (i, k, x) (ev_arbs e) -> smooth_arbiter x) -> (forall i k c, In (i, k, c) (ev_cons e) -> slack_joint c) ->
  mechanical (sc_body (step se s e)) ids /\ undriven se (step se s e) ids /\ total_energy (sc_body (step se s e)) ids <= total_energy (sc_body s) ids.
Proof.
  intros Hdt HM (HG & HD & HF) B1 B2 HA HJ. unfold step. rewrite dt_nonzero by lra. cbv zeta.
  set (w0 := sc_body s) in *. set (dt := ev_dt e) in *.
  set (w1 := each_body _ (sc_dyn s) w0).
  assert (P1 : forall i, (sound (w0 i) -> sound (w1 i)) /\ E (w1 i) = E (w0 i) /\ b_f (w1 i) = b_f (w0 i) /\ b_t (w1 i) = b_t (w0 i)).
  { intros i. apply (each_body_point (fun b => b_update_position b dt) (fun i b => (sound (w0 i) -> sound b) /\ E b = E (w0 i) /\ b_f b = b_f (w0 i) /\ b_t b = b_t (w0 i)) (sc_dyn s)).
    - intros k b (A & B & C & D). splits; auto. - intros; splits; auto. }
  assert (M1 : mechanical w1 ids) by (split; [apply HM|]; intros i Hi; apply P1, (proj2 HM i Hi)).
  rewrite (each_link_frame (prestep_arb se dt) (fun x a b => arb_prestep x dt (se_slop se) (none_ - npow (se_bias se) dt)%num a b) (ev_arbs e) w1) by reflexivity.
  match goal with |- context [map ?f (ev_arbs e)] => set (arbs := map f (ev_arbs e)) end.
  rewrite (each_link_frame (prestep_con dt) (fun x a b => let '(x', _, _) := prestep_con dt x a b in x') (ev_cons e) w1).
  2:{ intros i k x Hx. destruct (B2 _ _ _ Hx) as (_ & Hi & Hk). pose proof (joint_prepared dt x (w1 i) (w1 k) Hdt (proj2 M1 i Hi) (proj2 M1 k Hk) (HJ _ _ _ Hx)) as G.
      destruct (prestep_con dt x (w1 i) (w1 k)) as [[x' a'] b']. destruct G as (-> & -> & _). reflexivity. }
  match goal with |- context [map ?f (ev_cons e)] => set (js := map f (ev_cons e)) end. set (w2 := each_body _ (ev_dyn e) w1).
  pose proof (damp_range _ dt HD Hdt) as DR.
  assert (P2 : forall i, In i ids -> sound (w2 i) /\ E (w2 i) <= E (w1 i) /\ same_frame (w1 i) (w2 i) /\ b_f (w2 i) = mkV 0 0 /\ b_t (w2 i) = 0).
  { intros i. unfold w2. rewrite HG.
    apply (each_body_point (fun b => b_update_velocity b (mkV 0 0) (npow (se_damping se) dt) dt) (fun i b => In i ids -> sound b /\ E b <= E (w1 i) /\ same_frame (w1 i) b /\ b_f b = mkV 0 0 /\ b_t b = 0) (ev_dyn e)).
    - intros k b H Hk. destruct (H Hk) as (S1 & S2 & S3 & S4 & S5). destruct (velocity_E b (npow (se_damping se) dt) dt S1 S4 S5 DR) as (T1 & T2 & T3 & T4 & T5). splits; auto; [lra|eapply same_frame_trans; eauto].
    - intros k Hk. destruct (P1 k) as (Q1 & Q2 & Q3 & Q4). destruct (HF k Hk). splits; [exact (proj2 M1 k Hk)|lra|apply same_frame_refl|now rewrite Q3|now rewrite Q4]. }
  assert (M2 : mechanical w2 ids) by (split; [apply HM|]; intros i Hi; apply P2, Hi).
  assert (BA : between ids arbs). { intros i k x Hx. unfold arbs in Hx. apply in_map_iff in Hx as ([[i0 k0] x0] & Q & Hx). injection Q as <- <- _. eauto. }
  assert (BJ : between ids js). { intros i k x Hx. unfold js in Hx. apply in_map_iff in Hx as ([[i0 k0] x0] & Q & Hx). injection Q as <- <- _. eauto. }
  assert (ZA : forall i k x, In (i, k, x) arbs -> zeroP (w2 i) (w2 k) x).
  { intros i k x Hx. destruct (BA _ _ _ Hx) as (_ & Hi & Hk). unfold arbs in Hx. apply in_map_iff in Hx as ([[i0 k0] x0] & Q & Hx). injection Q as <- <- <-.
    destruct (arb_prepared se dt x0 (w1 i0) (w1 k0) (proj2 M1 _ Hi) (proj2 M1 _ Hk) (HA _ _ _ Hx)) as [Z1 Z2]. split; auto. destruct (P2 _ Hi) as (_ & _ & F1 & _), (P2 _ Hk) as (_ & _ & F2 & _). eapply smoothP_frame; eauto. }
  assert (ZJ : forall i k x, In (i, k, x) js -> zeroJ dt (w2 i) (w2 k) x).
  { intros i k x Hx. destruct (BJ _ _ _ Hx) as (_ & Hi & Hk). unfold js in Hx. apply in_map_iff in Hx as ([[i0 k0] x0] & Q & Hx). injection Q as <- <- <-.
    pose proof (joint_prepared dt x0 (w1 i0) (w1 k0) Hdt (proj2 M1 _ Hi) (proj2 M1 _ Hk) (HJ _ _ _ Hx)) as G. destruct (prestep_con dt x0 (w1 i0) (w1 k0)) as [[x' a'] b']. destruct G as (_ & _ & Z1 & Z2). split; auto.
    destruct (P2 _ Hi) as (_ & _ & F1 & _), (P2 _ Hk) as (_ & _ & F2 & _). eapply slackP_frame; eauto. }
  set (coef := if (sc_dt s =? nzero)%num then nzero else _). clearbody coef.
  rewrite (each_link_id (cached_arb coef) arbs w2). 2:{ intros i k x Hx. unfold cached_arb. now rewrite (cached_zero coef x (w2 i) (w2 k) (ZA _ _ _ Hx)). }
  rewrite (each_link_id (cached_con coef) js w2). 2:{ intros i k x Hx. exact (cached_zeroJ coef dt x _ _ (ZJ _ _ _ Hx)). }
  assert (G : cooler ids w2 (fst (fst (iterate dt (se_iter se) (w2, arbs, js))))).
  { apply iterate_cooler; auto.
    - apply Forall_forall. intros [[i k] x] Hx. exact (proj1 (ZA _ _ _ Hx)).
    - apply Forall_forall. intros [[i k] [p j]] Hx. exact (proj1 (ZJ _ _ _ Hx)). }
  assert (K : keeps_frame w2 (fst (fst (iterate dt (se_iter se) (w2, arbs, js))))).
  { apply (iterate_ok [] dt (se_iter se) w2 arbs js).
    - intros i0 k0 x0 Hx. split; [exact (proj1 (BA _ _ _ Hx))|tauto].
    - intros i0 k0 x0 Hx. split; [exact (proj1 (BJ _ _ _ Hx))|tauto]. }
  match goal with |- context [iterate dt ?n ?s] => change (iterate dt (se_iter se) (w2, arbs, js)) with (iterate dt n s) in G, K; destruct (iterate dt n s) as [[w3 arbs3] js3] end.
  cbn [fst sc_body] in *. destruct G as (G1 & G2 & G3).
  split; [exact G1|]. split.
  - split; [exact HG|]. split; [exact HD|]. intros i Hi. destruct (P2 i Hi) as (_ & _ & _ & Q4 & Q5). cbn [sc_body].
    destruct (K i) as (v & ww & vb & wb & ->). split; [exact Q4|exact Q5].
  - eapply Rle_trans; [exact G2|]. apply total_le. intros i Hi. destruct (P2 i Hi) as (_ & Q2 & _), (P1 i) as (_ & Q1 & _). lra.
Qed.

(** ** One contact with restitution *)
Lemma contact_exact n a b c : c_jtAcc c = 0 -> sound a -> sound b -> let '(a', b', c') := contact_step n (mkV 0 0) 0 a b c in
  let v := inner (closing a b (c_r1 c) (c_r2 c)) n in let k := eff a b (c_r1 c) (c_r2 c) n in let x := c_jnAcc c' - c_jnAcc c in
  sound a' /\ sound b' /\ same_frame a a' /\ same_frame b b' /\
  c_jnAcc c' = Rmax (c_jnAcc c - (c_bounce c + v) * c_nMass c) 0 /\ c_jtAcc c' = 0 /\ c_bounce c' = c_bounce c /\ c_nMass c' = c_nMass c /\ c_r1 c' = c_r1 c /\ c_r2 c' = c_r2 c /\
  inner (closing a' b' (c_r1 c) (c_r2 c)) n = v + x * k /\ E a' + E b' = E a + E b + 2 * x * v + x * x * k.
Proof.
  intros Ht Ha Hb. pose proof (contact_step_conserves n (mkV 0 0) 0 a b c) as HC. pose proof (contact_step_velocity n (mkV 0 0) 0 a b c) as HV. revert HC HV. unfold contact_step. cbv zeta.
  match goal with |- context [apply_bias_impulses a b ?r1 ?r2 ?J] => pose proof (E_bias a b r1 r2 J) as HE; pose proof (bias_conserves a b r1 r2 J) as HB;
    pose proof (bias_keeps_closing a b r1 r2 J r1 r2) as HK; destruct (apply_bias_impulses a b r1 r2 J) as [a1 b1] end.
  match goal with |- context [apply_impulses a1 b1 ?r1 ?r2 ?J] => pose proof (fun A B => E_push a1 b1 r1 r2 J A B) as HP; destruct (apply_impulses a1 b1 r1 r2 J) as [a2 b2] end.
  intros (HC & _) HV. destruct HB as (CB & _). destruct (sound_conserves _ _ _ _ CB Ha Hb) as [Ha1 Hb1]. destruct (sound_conserves _ _ _ _ HC Ha Hb) as [Ha2 Hb2].
  cbn [c_jnAcc c_jtAcc c_bounce c_nMass c_r1 c_r2 c_jBias] in *. destruct HV as (V1 & _ & V2 & _).
  match type of V2 with ?t = _ => set (jn := t) in * end.
  match goal with |- context [nclamp ?x ?y ?z] => set (jt := nclamp x y z) in * end.
  assert (Jt : jt = 0) by (unfold jt; unR; rewrite Rmult_0_l, Ropp_0, clampR by lra; unfold Rmin, Rmax; repeat destruct (Rle_dec _ _); lra).
  assert (IX : inner (vplus (closing a b (c_r1 c) (c_r2 c)) (mkV 0 0)) n = inner (closing a b (c_r1 c) (c_r2 c)) n) by (unfold inner, vplus; cbn [vx vy]; ring).
  rewrite IX in V2. destruct HC as (F1 & F2 & _). splits; auto.
  - rewrite V1, Jt, Ht. ring.
  - rewrite (HP Ha1 Hb1), HK. destruct HE as [-> ->]. rewrite rotate_n, Jt, Ht. unR. set (x := jn - c_jnAcc c).
    destruct CB as (G1 & G2 & _). rewrite (eff_frame a b a1 b1) by auto.
    replace (mkV (vx n * x - vy n * (0 - 0)) (vy n * x + vx n * (0 - 0))) with (vmult n x : RV) by (unfold vmult; unR; apply vec_eq; cbn [vx vy]; ring).
    rewrite Q_eff. unfold inner, vmult; unR; cbn [vx vy]. ring.
Qed.
Lemma bounce_loop n surf sw st0 e v E0 k0 m : surf = mkV 0 0 -> 0 <= e <= 1 -> tuned m k0 -> forall k a b c, sound a -> sound b ->
  c_jtAcc c = 0 -> c_nMass c = m -> c_bounce c = v * e -> eff a b (c_r1 c) (c_r2 c) n = k0 ->
  inner (closing a b (c_r1 c) (c_r2 c)) n = v + c_jnAcc c * k0 -> E a + E b = E0 + 2 * c_jnAcc c * v + c_jnAcc c * c_jnAcc c * k0 ->
  0 <= c_jnAcc c -> (0 <= v -> c_jnAcc c = 0) -> (v <= 0 -> c_jnAcc c * k0 <= - (1 + e) * v) -> 0 <= k0 ->
  let '(_, a', b') := arb_loop k (mkArb e 0 surf n [c] sw st0, a, b) in E a' + E b' <= E0.
Proof.
  intros -> He T. induction k as [|k IH]; intros a b c Ha Hb Ht Hm Hbo Hk Hv HE Hj Hp Hn K0; cbn [arb_loop].
  - destruct (Rle_dec 0 v) as [P|P].
    + rewrite HE, (Hp P). lra.
    + assert (L : v <= 0) by lra. specialize (Hn L). set (J := c_jnAcc c) in *. rewrite HE.
      assert (J * (J * k0 + 2 * v) <= 0) by (assert (J * k0 + 2 * v <= 0) by nra; nra). nra.
  - unfold arb_apply_impulse. cbn [ar_n ar_surf ar_u ar_contacts contacts_step].
    pose proof (contact_exact n a b c Ht Ha Hb) as X. destruct (contact_step n (mkV 0 0) 0 a b c) as [[a' b'] c'].
    cbv zeta in X. destruct X as (Sa & Sb & F1 & F2 & X1 & X2 & X3 & X4 & X5 & X6 & X7 & X8). unfold arb_with. cbn [ar_e ar_u ar_surf ar_n ar_swapped ar_state].
    rewrite Hk in *. rewrite Hv in *. rewrite Hbo, Hm in X1. set (J := c_jnAcc c) in *. set (J' := c_jnAcc c') in *. destruct T as [T1 T2].
    apply IH; auto; rewrite ?X5, ?X6; fold J'; try congruence.
    + rewrite (eff_frame a b a' b') by auto. exact Hk.
    + rewrite X7. ring.
    + rewrite X8, HE. ring.
    + rewrite X1. apply Rmax_r.
    + intros P. rewrite X1. rewrite (Hp P). apply Rmax_right. assert (0 <= (v * e + (v + 0 * k0)) * m) by (apply Rmult_le_pos; nra). lra.
    + intros P. specialize (Hn P). rewrite X1.
      assert (A : 0 <= - (v * e + (v + J * k0)) * m) by (apply Rmult_le_pos; lra).
      rewrite Rmax_left by lra.
      assert (B : (- (v * e + (v + J * k0))) * (m * k0) <= (- (v * e + (v + J * k0))) * 1) by (apply Rmult_le_compat_l; lra).
      nra.
Qed.
Lemma bounce (arb : Arb R) c a b k dt slop bias : ar_contacts arb = [c] -> c_jnAcc c = 0 -> c_jtAcc c = 0 -> ar_u arb = 0 -> ar_surf arb = mkV 0 0 -> norm2 (ar_n arb) <= 1 ->
  0 <= ar_e arb <= 1 -> sound a -> sound b -> let '(_, a', b') := arb_loop k (arb_prestep arb dt slop bias a b, a, b) in E a' + E b' <= E a + E b.
Proof.
  intros Hc H1 H2 Hu Hs Hn He Ha Hb. unfold arb_prestep, arb_with. rewrite Hc, Hu. cbn [map].
  set (c0 := con_prestep arb dt slop bias a b c).
  assert (V0 : normal_relative_velocity a b (c_r1 c) (c_r2 c) (ar_n arb) = inner (closing a b (c_r1 c) (c_r2 c)) (ar_n arb)) by apply normal_rel.
  apply (bounce_loop (ar_n arb) (ar_surf arb) (ar_swapped arb) (ar_state arb) (ar_e arb) (inner (closing a b (c_r1 c) (c_r2 c)) (ar_n arb)) (E a + E b) (eff a b (c_r1 c) (c_r2 c) (ar_n arb)) (c_nMass c0)); auto;
    unfold c0, con_prestep; cbn [c_jtAcc c_nMass c_bounce c_r1 c_r2 c_jnAcc]; rewrite ?H1, ?V0; auto; try (unR; lra).
  - apply k_scalar_tuned; auto.
  - intros P. rewrite Rmult_0_l. nra.
  - apply Q_nonneg; auto.
Qed.
