From Coq Require Import Reals ZArith Bool List Lra Lia Permutation.
From Verif Require Import Num Spec SpecBody SpecSolver.
From Verif.Model Require Import Vector BB Transform Body Solver.
From Verif.Proofs Require Import RTac BBOrder Geom BodyPf SolverPf SolverPf2 SolverPf3.
Import ListNotations.
Local Open Scope R_scope.

(** ** C36 *)
Lemma max_solve k x old want : 0 < k ->
  let new := Rmax (old + want / k) 0 in x + want <= x + (new - old) * k /\ (0 < new -> x + (new - old) * k = x + want).
Proof.
  intros Hk. cbv zeta.
  assert (E : want / k * k = want) by (field; lra). set (q := want / k) in *. clearbody q. subst want.
  unfold Rmax; destruct (Rle_dec _ _); split; intros; nra.
Qed.
Lemma contact_stops n surf u a b c : unit n -> inner surf n = 0 -> 0 < eff a b (c_r1 c) (c_r2 c) n ->
  c_nMass c = / eff a b (c_r1 c) (c_r2 c) n ->
  let '(a', b', c') := contact_step n surf u a b c in
  (coupling a b (c_r1 c) (c_r2 c) n = 0 \/ c_jtAcc c' = c_jtAcc c ->
   - c_bounce c <= inner (closing a' b' (c_r1 c) (c_r2 c)) n /\
   (0 < c_jnAcc c' -> inner (closing a' b' (c_r1 c) (c_r2 c)) n = - c_bounce c)) /\
  c_bias c <= inner (bias_closing a' b' (c_r1 c) (c_r2 c)) n /\
  (0 < c_jBias c' -> inner (bias_closing a' b' (c_r1 c) (c_r2 c)) n = c_bias c).
Proof.
  intros Hu Hs Hk Hm. pose proof (contact_step_velocity n surf u a b c) as H.
  destruct (contact_step n surf u a b c) as [[a' b'] c']. destruct H as (H1 & H2 & H3 & H4 & _).
  rewrite inner_vplus, Hs, Rplus_0_r, Hm in H3. rewrite Hm in H4.
  set (k := eff a b (c_r1 c) (c_r2 c) n) in *.
  split.
  - intros Hc. pose proof (max_solve k (inner (closing a b (c_r1 c) (c_r2 c)) n) (c_jnAcc c)
      (- (c_bounce c + inner (closing a b (c_r1 c) (c_r2 c)) n)) Hk) as M. cbv zeta in M.
    replace (c_jnAcc c + - (c_bounce c + inner (closing a b (c_r1 c) (c_r2 c)) n) / k) with
      (c_jnAcc c - (c_bounce c + inner (closing a b (c_r1 c) (c_r2 c)) n) * / k) in M by (unfold Rdiv; ring).
    rewrite <- H3 in M. destruct M as [M1 M2].
    assert (E : (c_jtAcc c' - c_jtAcc c) * coupling a b (c_r1 c) (c_r2 c) n = 0) by (destruct Hc as [->| ->]; ring).
    rewrite H1, E. split; [lra|]. intros HH. specialize (M2 HH). lra.
  - pose proof (max_solve k (inner (bias_closing a b (c_r1 c) (c_r2 c)) n) (c_jBias c)
      (c_bias c - inner (bias_closing a b (c_r1 c) (c_r2 c)) n) Hk) as M. cbv zeta in M. unfold Rdiv in M.
    rewrite <- H4 in M. destruct M as [M1 M2]. rewrite H2. split; [lra|]. intros HH. specialize (M2 HH). lra.
Qed.
(** the normal is never exactly of unit length (Normalize divides by length + 1e-15): the residual is tiny *)
Lemma contact_stops_near n surf u a b c : norm2 n <= 1 -> inner surf n = 0 ->
  0 <= b_minv a -> 0 <= b_minv b -> 0 <= b_iinv a -> 0 <= b_iinv b -> 0 < k_scalar a b (c_r1 c) (c_r2 c) n ->
  c_nMass c = / k_scalar a b (c_r1 c) (c_r2 c) n -> coupling a b (c_r1 c) (c_r2 c) n = 0 ->
  let '(a', b', c') := contact_step n surf u a b c in
  0 < c_jnAcc c' ->
  Rabs (inner (closing a' b' (c_r1 c) (c_r2 c)) n + c_bounce c) <=
    (1 - norm2 n) * Rabs (inner (closing a b (c_r1 c) (c_r2 c)) n + c_bounce c).
Proof.
  intros Hn Hs Ha Hb Hia Hib Hk Hm Hc. pose proof (contact_step_velocity n surf u a b c) as H.
  destruct (contact_step n surf u a b c) as [[a' b'] c']. destruct H as (H1 & _ & H3 & _).
  rewrite inner_vplus, Hs, Rplus_0_r, Hm in H3. rewrite H1, Hc, Rmult_0_r, Rplus_0_r.
  pose proof (k_scalar_eff_near a b (c_r1 c) (c_r2 c) n Hn Ha Hb Hia Hib) as [K1 K2].
  set (k := k_scalar a b (c_r1 c) (c_r2 c) n) in *. set (e := eff a b (c_r1 c) (c_r2 c) n) in *.
  set (v := inner (closing a b (c_r1 c) (c_r2 c)) n) in *. clearbody k e v.
  intros HP. rewrite H3 in HP |- *. unfold Rmax in *. destruct (Rle_dec _ _); [lra|].
  replace (v + (c_jnAcc c - (c_bounce c + v) * / k - c_jnAcc c) * e + c_bounce c) with ((1 - e / k) * (v + c_bounce c)) by (field; lra).
  rewrite Rabs_mult. apply Rmult_le_compat_r; [apply Rabs_pos|].
  assert (norm2 n <= e / k <= 1).
  { split; [apply Rmult_le_reg_r with k|apply Rmult_le_reg_r with k]; auto; unfold Rdiv; rewrite Rmult_assoc, Rinv_l by lra; lra. }
  rewrite Rabs_right by lra. lra.
Qed.

(** ** C38: third law *)
Lemma kicked_spin a b j : let '(a', b') := spin a b j in opposite_torque a b a' b' 1.
Proof.
  unfold spin, opposite_torque, kicked. exists j. ub. unR.
  split; f_equal; try (apply vec_eq; cbn [vx vy]; ring); ring.
Qed.
Lemma kicked_gear a b j k : let '(a', b') := gear_spin a b j k in opposite_torque a b a' b' k.
Proof.
  unfold gear_spin, opposite_torque, kicked. exists j. ub. unR.
  split; f_equal; try (apply vec_eq; cbn [vx vy]; ring); ring.
Qed.
Lemma kicked_unspin a b j : let '(a', b') := unspin a b j in opposite_torque a b a' b' 1.
Proof.
  unfold unspin, opposite_torque, kicked. exists (- j). ub. unR.
  split; f_equal; try (apply vec_eq; cbn [vx vy]; ring); ring.
Qed.
Lemma kicked_push a b r1 r2 J : let '(a', b') := apply_impulses a b r1 r2 J in opposite_push a b a' b'.
Proof.
  pose proof (apply_impulses_kicked a b r1 r2 J) as H. destruct (apply_impulses a b r1 r2 J) as [a' b']. exists r1, r2, J. exact H.
Qed.
Lemma upd_vel_same (b : Body R) : upd_vel b (b_v b) (b_w b) = b.
Proof. destruct b; reflexivity. Qed.
(** how a joint may act on its two bodies *)
Lemma no_push_lin a b : opposite_push a b a b.
Proof.
  exists (mkV 0 0), (mkV 0 0), (mkV 0 0). unfold kicked, crossR, vscale; cbn [vx vy]. split.
  - replace (mkV _ _) with (b_v a) by (apply vec_eq; cbn [vx vy]; ring). replace (_ + _) with (b_w a) by ring. now rewrite upd_vel_same.
  - replace (mkV _ _) with (b_v b) by (apply vec_eq; cbn [vx vy]; ring). replace (_ + _) with (b_w b) by ring. now rewrite upd_vel_same.
Qed.
Lemma no_torque a b k : opposite_torque a b a b k.
Proof.
  exists 0. unfold kicked; cbn [vx vy]. split.
  - replace (mkV _ _) with (b_v a) by (apply vec_eq; cbn [vx vy]; ring). replace (_ + _) with (b_w a) by ring. now rewrite upd_vel_same.
  - replace (mkV _ _) with (b_v b) by (apply vec_eq; cbn [vx vy]; ring). replace (_ + _) with (b_w b) by ring. now rewrite upd_vel_same.
Qed.
Ltac push := match goal with |- context [apply_impulses ?a ?b ?r1 ?r2 ?J] => pose proof (kicked_push a b r1 r2 J) as HP; destruct (apply_impulses a b r1 r2 J) as [? ?]; exact HP end.
Ltac tspin := match goal with |- context [spin ?a ?b ?J] => pose proof (kicked_spin a b J) as HP; destruct (spin a b J) as [? ?]; exact HP end.
Lemma joint_third_law p j dt a b : let '(_, a', b') := j_apply p j dt a b in third_law j a b a' b'.
Proof.
  unfold third_law. destruct j as [j|j|j|j|j|j|j|j|j|j]; cbn [j_apply linear_joint gear_factor].
  - unfold pin_apply; cbv zeta; push.
  - unfold pivot_apply; cbv zeta; push.
  - unfold slide_apply. destruct (vequal _ _); [apply no_push_lin|]. cbv zeta; push.
  - unfold groove_apply; cbv zeta; push.
  - unfold gear_apply; cbv zeta. match goal with |- context [gear_spin ?a ?b ?J ?k] => pose proof (kicked_gear a b J k) as HP; destruct (gear_spin a b J k); exact HP end.
  - unfold ratchet_apply. destruct (neqb _ _); [apply no_torque|]. cbv zeta; tspin.
  - unfold rotary_apply. destruct (neqb _ _); [apply no_torque|]. cbv zeta; tspin.
  - unfold motor_apply; cbv zeta; tspin.
  - unfold spring_apply; cbv zeta; push.
  - unfold rspring_apply; cbv zeta. match goal with |- context [unspin ?a ?b ?J] => pose proof (kicked_unspin a b J) as HP; destruct (unspin a b J); exact HP end.
Qed.
Lemma joint_third_law_cached j k a b : let '(a', b') := j_cached j k a b in third_law j a b a' b'.
Proof.
  unfold third_law. destruct j as [j|j|j|j|j|j|j|j|j|j]; cbn [j_cached linear_joint gear_factor]; try push; try tspin.
  - match goal with |- context [gear_spin ?a ?b ?J ?k] => pose proof (kicked_gear a b J k) as HP; destruct (gear_spin a b J k); exact HP end.
  - apply no_push_lin.
  - apply no_torque.
Qed.
Lemma joint_third_law_prestep p j dt a b : let '(_, a', b') := j_prestep p j dt a b in third_law j a b a' b'.
Proof.
  unfold third_law. destruct j as [j|j|j|j|j|j|j|j|j|j]; cbn [j_prestep linear_joint gear_factor]; try apply no_push_lin; try apply no_torque.
  - unfold spring_prestep; cbv zeta; push.
  - unfold rspring_prestep; cbv zeta; tspin.
Qed.

(** *** one-sided joints *)
Lemma clamp_le0 x m : 0 <= m -> - m <= nclamp x (- m) 0 <= 0.
Proof. intros. rewrite clampR by lra. unfold Rmax, Rmin; destruct (Rle_dec _ _); destruct (Rle_dec _ _); lra. Qed.
Lemma clamp_ge0 x m : 0 <= m -> 0 <= nclamp x 0 m <= m.
Proof. intros. rewrite clampR by lra. unfold Rmax, Rmin; destruct (Rle_dec _ _); destruct (Rle_dec _ _); lra. Qed.
Lemma slide_iter p dt worlds : forall j, 0 <= maxForce p * dt ->
  exists j', joint_iterations p dt (JSlide j) worlds = JSlide j' /\ sl_n j' = sl_n j /\ sl_r1 j' = sl_r1 j /\ sl_r2 j' = sl_r2 j /\
    (sl_n j = mkV 0 0 -> sl_jnAcc j' = sl_jnAcc j) /\ (sl_jnAcc j <= 0 -> sl_jnAcc j' <= 0) /\ (worlds <> [] -> sl_n j <> mkV 0 0 -> sl_jnAcc j' <= 0).
Proof.
  induction worlds as [|[a b] w IH]; intros j Hm.
  - exists j. splits; auto. contradiction.
  - cbn [joint_iterations]. cbn [j_apply]. unfold slide_apply. destruct (vequal (sl_n j) vzero) eqn:E.
    + apply vequal_zero in E. destruct (IH j Hm) as (j' & E1 & E2 & E3 & E4 & E5 & E6 & _). exists j'. splits; auto. contradiction.
    + assert (NE : sl_n j <> mkV 0 0) by (intro X; apply vequal_zero in X; congruence).
      cbv zeta. destruct (apply_impulses _ _ _ _ _).
      match goal with |- exists j', joint_iterations p dt (JSlide ?x) w = _ /\ _ => destruct (IH x Hm) as (j' & E1 & E2 & E3 & E4 & E5 & E6 & E7); set (jj := x) in * end.
      assert (HL : sl_jnAcc jj <= 0).
      { unfold jj; cbn [sl_jnAcc]. unR. replace (- maxForce p * dt) with (- (maxForce p * dt)) by ring. now apply clamp_le0. }
      exists j'. splits; auto. intros. contradiction.
Qed.
Lemma normalize_dir v : 0 <= inner (vnormalize v) v.
Proof. rewrite normalize_eq. pose proof (normalize_scale v) as K. unfold inner, vscale; cbn [vx vy]. set (k := 1 / _) in *. clearbody k. nra. Qed.
Lemma slide_one_sided (p : @Params R) dt j a b worlds : worlds <> [] -> 0 <= maxForce p * dt ->
  let g := anchor_gap a b (sl_A j) (sl_B j) in 0 <= sl_max j ->
  exists j', joint_step p dt (JSlide j) a b worlds = JSlide j' /\
  let J := fst (pushed (JSlide j')) in
  (sl_max j < norm g -> inner J g <= 0) /\ (norm g <= sl_max j -> norm g < sl_min j -> 0 <= inner J g) /\
  (norm g <= sl_max j -> sl_min j <= norm g -> J = mkV 0 0).
Proof.
  intros Hw Hm g Hx. unfold joint_step. cbn [j_prestep].
  pose proof (slide_prestep_cases p j dt a b) as C. cbv zeta in C. fold g in C.
  destruct (slide_iter p dt worlds (slide_prestep p j dt a b) Hm) as (j' & E1 & E2 & E3 & E4 & E5 & E6 & E7).
  exists j'. split; [exact E1|]. cbn [pushed fst]. rewrite E2. pose proof (normalize_dir g) as D.
  set (jj := slide_prestep p j dt a b) in *. clearbody jj.
  assert (IS : forall k v, inner (vscale k v) g = k * inner v g) by (intros; unfold inner, vscale; cbn [vx vy]; ring).
  splits; intros.
  - destruct C as [(C1 & C2 & _)|[(C1 & _)|(C1 & _)]]; [|lra|lra]. rewrite IS, C2.
    assert (sl_jnAcc j' <= 0); [|nra]. apply E7; auto. rewrite C2. apply normalize_nonzero. intros E. rewrite E, norm_zero in C1. lra.
  - destruct C as [(C1 & _)|[(_ & C1 & C2 & _)|(_ & C1 & _)]]; [lra| |lra]. rewrite IS, C2.
    assert (IN : inner (vneg (vnormalize g)) g = - inner (vnormalize g) g) by (unfold inner, vneg; unR; cbn [vx vy]; ring).
    rewrite IN. destruct (Req_dec (inner (vnormalize g) g) 0) as [Z|Z]; [rewrite Z; lra|].
    assert (sl_jnAcc j' <= 0); [|nra]. apply E7; auto. rewrite C2. apply neg_nonzero, normalize_nonzero.
    intros E. apply Z. rewrite E. unfold inner; cbn [vx vy]. ring.
  - destruct C as [(C1 & _)|[(_ & C1 & _)|(_ & _ & C2 & _)]]; [lra|lra|]. rewrite C2. unfold vscale; cbn [vx vy]. apply vec_eq; cbn; ring.
Qed.
Lemma bias_coef_nonneg eb dt : 0 < eb <= 1 -> 0 < dt -> 0 <= bias_coef eb dt.
Proof.
  intros He Hd. unfold bias_coef. unR. assert (Rpower eb dt <= 1); [|lra].
  unfold Rpower. rewrite <- exp_0.
  destruct (Req_dec eb 1) as [->|N]; [rewrite ln_1, Rmult_0_r; lra|].
  left. apply exp_increasing. assert (ln eb < 0) by (rewrite <- ln_1; apply ln_increasing; lra). nra.
Qed.
Lemma bias_sign c pd dt mb : 0 <= c -> 0 < dt -> 0 <= mb ->
  (pd <= 0 -> 0 <= nclamp (- c * pd / dt) (- mb) mb) /\ (0 <= pd -> nclamp (- c * pd / dt) (- mb) mb <= 0).
Proof.
  intros Hc Hd Hm. rewrite clampR by lra. assert (D : 0 < / dt) by now apply Rinv_0_lt_compat.
  unfold Rdiv. set (d := / dt) in *. clearbody d.
  split; intros Hp.
  - assert (0 <= - c * pd * d) by (replace (- c * pd * d) with (c * ((-pd) * d)) by ring; apply Rmult_le_pos; auto; nra).
    unfold Rmax, Rmin; destruct (Rle_dec _ _); destruct (Rle_dec _ _); lra.
  - assert (0 <= c * pd * d) by (rewrite Rmult_assoc; apply Rmult_le_pos; auto; nra).
    unfold Rmax, Rmin; destruct (Rle_dec _ _); destruct (Rle_dec _ _); lra.
Qed.
Lemma rotary_iter p dt worlds : forall j, 0 <= maxForce p * dt -> worlds <> [] ->
  exists j', joint_iterations p dt (JRotary j) worlds = JRotary j' /\ ro_bias j' = ro_bias j /\
    (ro_bias j < 0 -> 0 <= ro_jAcc j') /\ (0 < ro_bias j -> ro_jAcc j' <= 0) /\ (ro_bias j = 0 -> ro_jAcc j' = ro_jAcc j).
Proof.
  induction worlds as [|[a b] w IH]; intros j Hm Hw; [contradiction|].
  cbn [joint_iterations j_apply]. unfold rotary_apply. unR. destruct (Reqb_spec (ro_bias j) 0) as [E|E].
  - destruct w as [|q w].
    + exists j. splits; auto; intros; lra.
    + apply IH; auto. discriminate.
  - cbv zeta. destruct (spin _ _ _).
    match goal with |- exists j', joint_iterations p dt (JRotary ?x) w = _ /\ _ => set (jj := x) in * end.
    assert (S1 : (ro_bias j < 0 -> 0 <= ro_jAcc jj) /\ (0 < ro_bias j -> ro_jAcc jj <= 0)).
    { unfold jj; cbn [ro_jAcc]. destruct (Rltb_spec (ro_bias j) 0); split; intros; try lra; [apply clamp_ge0|apply clamp_le0]; auto. }
    destruct w as [|q w].
    + exists jj. splits; auto; try tauto; intros; lra.
    + destruct (IH jj Hm) as (j' & E1 & E2 & E3 & E4 & E5); [discriminate|]. exists j'. change (ro_bias jj) with (ro_bias j) in *.
      splits; auto; intros; lra.
Qed.
Lemma rotary_one_sided (p : @Params R) dt j a b worlds : worlds <> [] -> 0 <= maxForce p -> 0 < dt -> 0 < errorBias p <= 1 -> 0 <= maxBias p ->
  ro_min j <= ro_max j ->
  exists j', joint_step p dt (JRotary j) a b worlds = JRotary j' /\
  (ro_max j < rel_angle a b -> ro_jAcc j' <= 0) /\ (rel_angle a b < ro_min j -> 0 <= ro_jAcc j') /\
  (ro_min j <= rel_angle a b <= ro_max j -> ro_jAcc j' = 0).
Proof.
  intros Hw Hf Hd He Hb Hmm. unfold joint_step. cbn [j_prestep]. assert (Hm : 0 <= maxForce p * dt) by nra.
  pose proof (bias_coef_nonneg _ _ He Hd) as HC.
  destruct (rotary_iter p dt worlds (rotary_prestep p j dt a b) Hm Hw) as (j' & E1 & E2 & E3 & E4 & E5).
  exists j'. split; [exact E1|]. unfold rotary_prestep in *. cbn [ro_bias ro_jAcc] in *. unfold rel_angle. unR.
  set (c := bias_coef (errorBias p) dt) in *. clearbody c. set (d := b_a b - b_a a) in *. clearbody d.
  set (pd := if Rltb (ro_max j) d then ro_max j - d else if Rltb d (ro_min j) then ro_min j - d else 0) in *.
  pose proof (bias_sign c pd dt (maxBias p) HC Hd Hb) as [B1 B2].
  set (bias := nclamp (- c * pd / dt) (- maxBias p) (maxBias p)) in *.
  assert (HP : (ro_max j < d -> pd <= 0) /\ (d < ro_min j -> 0 <= pd) /\ (ro_min j <= d <= ro_max j -> pd = 0)).
  { unfold pd. destruct (Rltb_spec (ro_max j) d); [|destruct (Rltb_spec d (ro_min j))]; splits; intros; lra. }
  destruct HP as (P1 & P2 & P3).
  assert (Z : bias = 0 -> ro_jAcc j' = 0).
  { intros Z. rewrite E5 by auto. destruct (Reqb_spec bias 0); [reflexivity|contradiction]. }
  clearbody bias pd. splits; intros HH.
  - specialize (B1 (P1 HH)). destruct (Req_dec bias 0) as [Q|Q]; [rewrite (Z Q); lra|apply E4; lra].
  - specialize (B2 (P2 HH)). destruct (Req_dec bias 0) as [Q|Q]; [rewrite (Z Q); lra|apply E3; lra].
  - apply Z. specialize (P3 HH). lra.
Qed.
Lemma ratchet_iter p dt worlds : forall j, 0 <= maxForce p * dt -> ra_ratchet j <> 0 -> worlds <> [] ->
  exists j', joint_iterations p dt (JRatchet j) worlds = JRatchet j' /\
    (ra_bias j <> 0 -> 0 <= ra_jAcc j' * ra_ratchet j) /\ (ra_bias j = 0 -> ra_jAcc j' = ra_jAcc j).
Proof.
  induction worlds as [|[a b] w IH]; intros j Hm Hr Hw; [contradiction|].
  cbn [joint_iterations j_apply]. unfold ratchet_apply. unR. destruct (Reqb_spec (ra_bias j) 0) as [E|E].
  - destruct w as [|q w]; [exists j; splits; auto; intros; lra|apply IH; auto; discriminate].
  - cbv zeta. destruct (spin _ _ _).
    match goal with |- exists j', joint_iterations p dt (JRatchet ?x) w = _ /\ _ => set (jj := x) in * end.
    assert (S1 : 0 <= ra_jAcc jj * ra_ratchet j) by (unfold jj; cbn [ra_jAcc]; now apply ratchet_bound).
    destruct w as [|q w].
    + exists jj. splits; auto. intros; contradiction.
    + destruct (IH jj Hm) as (j' & E1 & E2 & E3); [exact Hr|discriminate|]. exists j'. change (ra_bias jj) with (ra_bias j) in *.
      change (ra_ratchet jj) with (ra_ratchet j) in *. splits; auto; intros; contradiction.
Qed.
Lemma ratchet_one_sided (p : @Params R) dt j a b worlds : worlds <> [] -> 0 <= maxForce p -> 0 < dt -> 0 <= maxBias p -> ra_ratchet j <> 0 ->
  exists j', joint_step p dt (JRatchet j) a b worlds = JRatchet j' /\ 0 <= ra_jAcc j' * ra_ratchet j /\
  ((ra_angle j - rel_angle a b) * ra_ratchet j <= 0 -> ra_jAcc j' = 0).
Proof.
  intros Hw Hf Hd Hb Hr. unfold joint_step. cbn [j_prestep]. assert (Hm : 0 <= maxForce p * dt) by nra.
  destruct (ratchet_iter p dt worlds (ratchet_prestep p j dt a b) Hm) as (j' & E1 & E2 & E3); auto.
  { unfold ratchet_prestep; cbv zeta. destruct (nltb _ _); exact Hr. }
  exists j'. split; [exact E1|]. unfold ratchet_prestep, rel_angle in *. cbv zeta in *. unR.
  destruct (Rltb_spec 0 ((ra_angle j - (b_a b - b_a a)) * ra_ratchet j)) as [L|L]; cbn [ra_bias ra_jAcc ra_ratchet] in *.
  - match type of E2 with ?x <> 0 -> _ => set (bias := x) in * end. split; [|intros; lra].
    destruct (Reqb_spec bias 0) as [Z|Z]; [rewrite (E3 Z); lra|auto].
  - match type of E2 with ?x <> 0 -> _ => assert (Z : x = 0) end.
    { rewrite Rmult_0_r. unfold Rdiv. rewrite Rmult_0_l, clampR by lra. unfold Rmax, Rmin; destruct (Rle_dec _ _); destruct (Rle_dec _ _); lra. }
    rewrite Z in *. specialize (E3 eq_refl). destruct (Reqb_spec 0 0); [|lra]. rewrite E3. split; lra.
Qed.
