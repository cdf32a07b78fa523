From Coq Require Import Reals ZArith Bool List Lra Lia Permutation.
From Verif Require Import Num Spec SpecBody SpecSolver.
From Verif.Model Require Import Vector BB Transform Body Solver.
From Verif.Proofs Require Import RTac BBOrder Geom BodyPf SolverPf SolverPf2 SolverPf3 SolverPf4.
Import ListNotations.
Local Open Scope R_scope.

(** ** C59: unclamped joints solve their velocity constraint exactly *)
Lemma clamp_inside x lo hi : lo <= hi -> lo < nclamp x lo hi < hi -> nclamp x lo hi = x.
Proof. intros Hl. rewrite clampR by auto. unfold Rmax, Rmin; destruct (Rle_dec _ _); destruct (Rle_dec _ _); lra. Qed.
Lemma clamp_below x lo hi : lo <= hi -> nclamp x lo hi < hi -> x <= nclamp x lo hi.
Proof. intros Hl. rewrite clampR by auto. unfold Rmax, Rmin; destruct (Rle_dec _ _); destruct (Rle_dec _ _); lra. Qed.
Lemma clamp_above x lo hi : lo <= hi -> lo < nclamp x lo hi -> nclamp x lo hi <= x.
Proof. intros Hl. rewrite clampR by auto. unfold Rmax, Rmin; destruct (Rle_dec _ _); destruct (Rle_dec _ _); lra. Qed.
Lemma vmult_rot n k : vmult n k = mkV (vx n * k - vy n * 0) (vy n * k + vx n * 0) :> RV.
Proof. unfold vmult; unR; apply vec_eq; cbn [vx vy]; ring. Qed.
Lemma closing_normal a b r1 r2 n k : let '(a', b') := apply_impulses a b r1 r2 (vmult n k) in
  inner (closing a' b' r1 r2) n = inner (closing a b r1 r2) n + k * eff a b r1 r2 n.
Proof.
  rewrite vmult_rot. pose proof (closing_after a b r1 r2 (mkV (vx n * k - vy n * 0) (vy n * k + vx n * 0))) as H.
  destruct (apply_impulses _ _ _ _ _) as [a' b']. rewrite H, inner_vplus, mobility_n. ring.
Qed.
Lemma pin_solves p dt j a b : 0 <= maxForce p * dt -> 0 < eff a b (pin_r1 j) (pin_r2 j) (pin_n j) ->
  pin_nMass j = / eff a b (pin_r1 j) (pin_r2 j) (pin_n j) ->
  let '(j', a', b') := pin_apply p j dt a b in
  Rabs (pin_jnAcc j') < maxForce p * dt -> inner (closing a' b' (pin_r1 j) (pin_r2 j)) (pin_n j) = pin_bias j.
Proof.
  intros Hm Hk HN. unfold pin_apply. cbv zeta.
  match goal with |- context [apply_impulses a b ?r1 ?r2 (vmult ?n ?k)] => pose proof (closing_normal a b r1 r2 n k) as HC; destruct (apply_impulses a b r1 r2 (vmult n k)) as [a' b'] end.
  cbn [pin_jnAcc]. intros HA. unR. apply Rabs_def2 in HA. rewrite clamp_inside in HC by lra. rewrite HC, HN.
  unfold normal_relative_velocity. rewrite (closing_eq a b). vdi. field. lra.
Qed.
Lemma slide_solves p dt j a b : 0 <= maxForce p * dt -> 0 < eff a b (sl_r1 j) (sl_r2 j) (sl_n j) ->
  sl_nMass j = / eff a b (sl_r1 j) (sl_r2 j) (sl_n j) -> sl_n j <> mkV 0 0 ->
  let '(j', a', b') := slide_apply p j dt a b in
  (- (maxForce p * dt) < sl_jnAcc j' -> inner (closing a' b' (sl_r1 j) (sl_r2 j)) (sl_n j) <= sl_bias j) /\
  (- (maxForce p * dt) < sl_jnAcc j' < 0 -> inner (closing a' b' (sl_r1 j) (sl_r2 j)) (sl_n j) = sl_bias j).
Proof.
  intros Hm Hk HN Hn. unfold slide_apply. destruct (vequal (sl_n j) vzero) eqn:E; [apply vequal_zero in E; contradiction|]. cbv zeta.
  match goal with |- context [apply_impulses a b ?r1 ?r2 (vmult ?n ?k)] => pose proof (closing_normal a b r1 r2 n k) as HC; destruct (apply_impulses a b r1 r2 (vmult n k)) as [a' b'] end.
  cbn [sl_jnAcc]. unR. replace (- maxForce p * dt) with (- (maxForce p * dt)) in * by ring. rewrite closing_eq, HN in *. vdi.
  set (k := eff a b (sl_r1 j) (sl_r2 j) (sl_n j)) in *. set (v := inner (closing a b (sl_r1 j) (sl_r2 j)) (sl_n j)) in *.
  assert (EQ : (sl_jnAcc j + (sl_bias j - v) * / k - sl_jnAcc j) * k = sl_bias j - v) by (field; lra).
  split; intros HA.
  - apply clamp_above in HA; [|lra]. rewrite HC. set (x := nclamp _ _ _) in *. clearbody x. nra.
  - rewrite clamp_inside in HC by lra. rewrite HC. lra.
Qed.
Lemma k_tensor_mobility a b r1 r2 v :
  let k11 := b_minv a + b_minv b + vy r1 * vy r1 * b_iinv a + vy r2 * vy r2 * b_iinv b in
  let k12 := - vx r1 * vy r1 * b_iinv a + - vx r2 * vy r2 * b_iinv b in
  let k22 := b_minv a + b_minv b + vx r1 * vx r1 * b_iinv a + vx r2 * vx r2 * b_iinv b in
  k11 * k22 - k12 * k12 <> 0 -> mobility a b r1 r2 (mat_transform (k_tensor a b r1 r2) v) = v.
Proof.
  cbv zeta. intros HD. unfold mat_transform, k_tensor; unR. cbv zeta. cbn [m_a m_b m_c m_d].
  unfold mobility, crossR; cbn [vx vy]. destruct v as [x y], r1 as [x1 y1], r2 as [x2 y2]. cbn [vx vy] in *.
  set (ma := b_minv a) in *. set (mb := b_minv b) in *. set (ia := b_iinv a) in *. set (ib := b_iinv b) in *. clearbody ma mb ia ib.
  apply vec_eq; cbn [vx vy]; field; intro E; apply HD; rewrite <- E; ring.
Qed.
Lemma k_tensor_det a b (r1 r2 : RV) : 0 <= b_minv a -> 0 <= b_minv b -> 0 < b_minv a + b_minv b -> 0 <= b_iinv a -> 0 <= b_iinv b ->
  0 < (b_minv a + b_minv b + vy r1 * vy r1 * b_iinv a + vy r2 * vy r2 * b_iinv b) *
      (b_minv a + b_minv b + vx r1 * vx r1 * b_iinv a + vx r2 * vx r2 * b_iinv b) -
      (- vx r1 * vy r1 * b_iinv a + - vx r2 * vy r2 * b_iinv b) * (- vx r1 * vy r1 * b_iinv a + - vx r2 * vy r2 * b_iinv b).
Proof.
  destruct r1 as [x1 y1], r2 as [x2 y2]; cbn [vx vy]. set (s := b_minv a + b_minv b). set (p := b_iinv a). set (q := b_iinv b).
  intros _ _ Hs Hp Hq. clearbody s p q.
  replace (_ - _) with (s * s + s * (p * (x1*x1 + y1*y1)) + s * (q * (x2*x2 + y2*y2)) + p * q * ((x1 * y2 - x2 * y1) * (x1 * y2 - x2 * y1))) by ring.
  assert (0 < s * s) by nra.
  assert (0 <= s * (p * (x1 * x1 + y1 * y1))) by (apply Rmult_le_pos; [lra|]; apply Rmult_le_pos; nra).
  assert (0 <= s * (q * (x2 * x2 + y2 * y2))) by (apply Rmult_le_pos; [lra|]; apply Rmult_le_pos; nra).
  assert (0 <= p * q * ((x1 * y2 - x2 * y1) * (x1 * y2 - x2 * y1))) by (apply Rmult_le_pos; [nra|apply Rle_0_sqr]).
  lra.
Qed.
Lemma vclamp_inside v m : 0 <= m -> norm (vclamp v m) < m * (1 - 1 / 1000000000000000) -> (1 <= m) -> vclamp v m = v.
Proof.
  (* norm of a clamped vector is m * (norm v / (norm v + 1e-15)) with norm v > m >= 1 *)
  intros Hm HN H1. unfold vclamp in *. unR. rewrite vdot_inner in *. destruct (Rltb_spec (m * m) (inner v v)) as [L|L]; [|reflexivity].
  exfalso. replace (inner v v) with (norm v * norm v) in L by (rewrite norm_sq; unfold inner, norm2; ring).
  pose proof (norm_nonneg v) as NN. assert (G : m < norm v) by nra.
  assert (E : norm (vmult (vnormalize v) m) = m * norm (vnormalize v)).
  { rewrite <- norm_scale by lra. f_equal. unfold vmult, vscale; unR; apply vec_eq; cbn [vx vy]; ring. }
  rewrite E, normalize_norm in HN. set (e := 1 / 1000000000000000) in *. assert (0 < e) by (unfold e; lra). clearbody e.
  assert (HB : norm v / (norm v + e) < 1 - e) by nra.
  apply (Rmult_lt_compat_r (norm v + e)) in HB; [|lra]. unfold Rdiv in HB. rewrite Rmult_assoc, Rinv_l in HB by lra. nra.
Qed.
Lemma pivot_solves p dt j a b : 0 <= b_minv a -> 0 <= b_minv b -> 0 < b_minv a + b_minv b -> 0 <= b_iinv a -> 0 <= b_iinv b ->
  piv_k j = k_tensor a b (piv_r1 j) (piv_r2 j) ->
  norm (vplus (piv_jAcc j) (mat_transform (piv_k j) (vminus (piv_bias j) (closing a b (piv_r1 j) (piv_r2 j))))) <= maxForce p * dt ->
  let '(j', a', b') := pivot_apply p j dt a b in closing a' b' (piv_r1 j) (piv_r2 j) = piv_bias j.
Proof.
  intros H1 H2 H3 H4 H5 HK HL. unfold pivot_apply. cbv zeta. rewrite closing_eq.
  change (vadd (piv_jAcc j) (mat_transform (piv_k j) (vsub (piv_bias j) (closing a b (piv_r1 j) (piv_r2 j)))))
    with (vplus (piv_jAcc j) (mat_transform (piv_k j) (vminus (piv_bias j) (closing a b (piv_r1 j) (piv_r2 j))))).
  rewrite vclamp_short by exact HL.
  match goal with |- context [apply_impulses a b ?r1 ?r2 ?J] => pose proof (closing_after a b r1 r2 J) as HC; destruct (apply_impulses a b r1 r2 J) as [a' b'] end.
  rewrite HC. set (c := closing a b (piv_r1 j) (piv_r2 j)) in *. set (t := mat_transform _ _) in *.
  replace (vsub (vplus (piv_jAcc j) t) (piv_jAcc j)) with t by (unfold vsub, vplus; unR; apply vec_eq; cbn [vx vy]; ring).
  unfold t. rewrite HK, k_tensor_mobility; [unfold vplus, vminus; apply vec_eq; cbn [vx vy]; ring|].
  apply Rgt_not_eq, k_tensor_det; auto.
Qed.
Lemma gear_solves p dt j a b : 0 <= maxForce p * dt -> ge_ratio j <> 0 -> ge_ratio_inv j = / ge_ratio j ->
  b_iinv a * ge_ratio_inv j + ge_ratio j * b_iinv b <> 0 -> ge_iSum j = 1 / (b_iinv a * ge_ratio_inv j + ge_ratio j * b_iinv b) ->
  let '(j', a', b') := gear_apply p j dt a b in Rabs (ge_jAcc j') < maxForce p * dt -> b_w b' * ge_ratio j - b_w a' = ge_bias j.
Proof.
  intros Hm Hr Hri Hk HI. unfold gear_apply. cbv zeta. unfold gear_spin. ub. cbn [ge_jAcc]. unR. intros HA. apply Rabs_def2 in HA.
  rewrite clamp_inside by lra. rewrite HI. set (ri := ge_ratio_inv j) in *. clearbody ri. field. auto.
Qed.
Lemma motor_solves p dt j a b : 0 <= maxForce p * dt -> b_iinv a + b_iinv b <> 0 -> mo_iSum j = 1 / (b_iinv a + b_iinv b) ->
  let '(j', a', b') := motor_apply p j dt a b in Rabs (mo_jAcc j') < maxForce p * dt -> rel_spin a' b' = - mo_rate j.
Proof.
  intros Hm Hk HI. unfold motor_apply. cbv zeta. unfold spin, rel_spin. ub. cbn [mo_jAcc]. unR. intros HA. apply Rabs_def2 in HA.
  rewrite clamp_inside by lra. rewrite HI. field. auto.
Qed.
Lemma rotary_solves p dt j a b : 0 <= maxForce p * dt -> 0 < b_iinv a + b_iinv b -> ro_iSum j = 1 / (b_iinv a + b_iinv b) ->
  let '(j', a', b') := rotary_apply p j dt a b in
  (ro_bias j < 0 -> ro_jAcc j' < maxForce p * dt -> - ro_bias j <= rel_spin a' b') /\
  (0 < ro_bias j -> - (maxForce p * dt) < ro_jAcc j' -> rel_spin a' b' <= - ro_bias j) /\
  (ro_bias j <> 0 -> ro_jAcc j' <> 0 -> Rabs (ro_jAcc j') < maxForce p * dt -> rel_spin a' b' = - ro_bias j).
Proof.
  intros Hm Hk HI. unfold rotary_apply. unR. destruct (Reqb_spec (ro_bias j) 0) as [E|E]; [splits; intros; lra|].
  cbv zeta. unfold spin, rel_spin. ub. cbn [ro_jAcc]. unR. rewrite HI.
  set (k := b_iinv a + b_iinv b) in *. set (wr := b_w b - b_w a).
  set (x := ro_jAcc j + - (ro_bias j + wr) * (1 / k)).
  assert (EX : (x - ro_jAcc j) * k = - ro_bias j - wr) by (unfold x; field; lra).
  assert (EW : forall y, b_w b + (y - ro_jAcc j) * b_iinv b - (b_w a - (y - ro_jAcc j) * b_iinv a) = wr + (y - ro_jAcc j) * k) by (intros; unfold wr, k; ring).
  rewrite EW. clearbody x wr. clear HI EW. splits; intros.
  - destruct (Rltb_spec (ro_bias j) 0); [|lra]. pose proof (clamp_below x 0 (maxForce p * dt) ltac:(lra) ltac:(assumption)). nra.
  - destruct (Rltb_spec (ro_bias j) 0); [lra|]. pose proof (clamp_above x (- (maxForce p * dt)) 0 ltac:(lra) ltac:(assumption)). nra.
  - match goal with HA : Rabs _ < _ |- _ => apply Rabs_def2 in HA end.
    destruct (Rltb_spec (ro_bias j) 0).
    + pose proof (clamp_ge0 x (maxForce p * dt) Hm). rewrite clamp_inside by lra. lra.
    + pose proof (clamp_le0 x (maxForce p * dt) Hm). rewrite clamp_inside by lra. lra.
Qed.
Lemma ratchet_solves p dt j a b : 0 <= maxForce p * dt -> 0 < b_iinv a + b_iinv b -> ra_ratchet j <> 0 -> ra_bias j <> 0 ->
  ra_iSum j = 1 / (b_iinv a + b_iinv b) ->
  let '(j', a', b') := ratchet_apply p j dt a b in
  ra_jAcc j' <> 0 -> Rabs (ra_jAcc j') < maxForce p * dt -> rel_spin a' b' = - ra_bias j.
Proof.
  intros Hm Hk Hr Hb HI. unfold ratchet_apply. unR. destruct (Reqb_spec (ra_bias j) 0) as [E|E]; [contradiction|].
  cbv zeta. unfold spin, rel_spin. ub. cbn [ra_jAcc]. unR. rewrite HI.
  set (r := ra_ratchet j) in *. set (x := ra_jAcc j + - (ra_bias j + (b_w b - b_w a)) * (1 / (b_iinv a + b_iinv b))).
  set (M := maxForce p * dt) in *. assert (Ra : 0 < Rabs r) by now apply Rabs_pos_lt.
  pose proof (clamp_ge0 (x * r) (M * Rabs r) ltac:(nra)) as HB. intros HZ HA.
  assert (HC : nclamp (x * r) 0 (M * Rabs r) = x * r).
  { set (c := nclamp (x * r) 0 (M * Rabs r)) in *. apply clamp_inside; [nra|]. fold c.
    assert (c <> 0) by (intro Z; apply HZ; rewrite Z; unfold Rdiv; ring).
    unfold Rdiv in HA. rewrite Rabs_mult, Rabs_inv, (Rabs_right c) in HA by lra.
    apply (Rmult_lt_compat_r (Rabs r)) in HA; auto. rewrite Rmult_assoc, Rinv_l in HA by lra. lra. }
  rewrite HC. replace (x * r / r) with x by (field; auto). unfold x. field. lra.
Qed.

(** ** C60: bookkeeping *)
Lemma kicked_refl b s : kicked2 b b s s.
Proof.
  unfold kicked2, kicked, vminus; cbn [vx vy]. replace (mkV _ _) with (b_v b) by (apply vec_eq; cbn [vx vy]; ring).
  replace (_ + _) with (b_w b) by ring. now rewrite upd_vel_same.
Qed.
Lemma kicked_trans b b' b'' s s' s'' : kicked2 b b' s s' -> kicked2 b' b'' s' s'' -> kicked2 b b'' s s''.
Proof.
  unfold kicked2, kicked. intros -> ->. unfold upd_vel, vminus.
  cbn [b_m b_minv b_i b_iinv b_cog b_p b_v b_f b_a b_w b_t b_tr b_vbias b_wbias b_shapes b_idle vx vy].
  f_equal; [apply vec_eq; cbn [vx vy]; ring|ring].
Qed.
Ltac push2 := match goal with |- context [apply_impulses ?a ?b ?r1 ?r2 ?J] => pose proof (apply_impulses_kicked a b r1 r2 J) as HP;
   destruct (apply_impulses a b r1 r2 J) as [? ?]; destruct HP as [_ HP]; split; [reflexivity|]; unfold kicked2; cbn [pushed fst snd];
   match type of HP with kicked _ _ ?J ?t => match goal with |- kicked _ _ ?J' ?t' =>
     replace J' with J; [replace t' with t; [exact HP|]|] end end end.
Ltac spin2 := unfold spin, gear_spin; unR; split; [reflexivity|]; unfold kicked2, kicked; cbn [pushed fst snd]; unfold vminus; cbn [vx vy];
   f_equal; [apply vec_eq; cbn [vx vy]; ring | cbn [ge_jAcc ra_jAcc ro_jAcc mo_jAcc]; ring].
Lemma joint_bookkeeping p j dt a b : is_rspring j = false -> let '(j', a', b') := j_apply p j dt a b in is_rspring j' = false /\ kicked2 b b' (pushed j) (pushed j').
Proof.
  intros Hj. destruct j as [j|j|j|j|j|j|j|j|j|j]; try discriminate; cbn [j_apply].
  - unfold pin_apply; cbv zeta. push2; cbn [pin_jnAcc pin_n pin_r2]; unfold crossR, vminus, vscale, vmult; unR; cbn [vx vy]; [ring|apply vec_eq; cbn [vx vy]; ring].
  - unfold pivot_apply; cbv zeta. push2; cbn [piv_jAcc piv_r2]; unfold crossR, vminus, vsub; unR; cbn [vx vy]; [ring|reflexivity].
  - unfold slide_apply. destruct (vequal _ _); [split; [reflexivity|apply kicked_refl]|]. cbv zeta.
    push2; cbn [sl_jnAcc sl_n sl_r2]; unfold crossR, vminus, vscale, vmult; unR; cbn [vx vy]; [ring|apply vec_eq; cbn [vx vy]; ring].
  - unfold groove_apply; cbv zeta. push2; cbn [gr_jAcc gr_r2]; unfold crossR, vminus, vsub; unR; cbn [vx vy]; [ring|reflexivity].
  - unfold gear_apply; cbv zeta. spin2.
  - unfold ratchet_apply. destruct (neqb _ _); [split; [reflexivity|apply kicked_refl]|]. cbv zeta. spin2.
  - unfold rotary_apply. destruct (neqb _ _); [split; [reflexivity|apply kicked_refl]|]. cbv zeta. spin2.
  - unfold motor_apply; cbv zeta. spin2.
  - unfold spring_apply; cbv zeta. push2; cbn [sp_jAcc sp_n sp_r2]; unfold crossR, vminus, vscale, vmult; unR; cbn [vx vy]; [ring|apply vec_eq; cbn [vx vy]; ring].
Qed.
Lemma joint_loop_bookkeeping p dt k : forall j a b, is_rspring j = false -> let '(j', a', b') := joint_loop p dt k (j, a, b) in kicked2 b b' (pushed j) (pushed j').
Proof.
  induction k as [|k IH]; intros j a b Hj; cbn [joint_loop]; [apply kicked_refl|].
  pose proof (joint_bookkeeping p j dt a b Hj) as H. destruct (j_apply p j dt a b) as [[j1 a1] b1]. destruct H as [H1 H2].
  specialize (IH j1 a1 b1 H1). destruct (joint_loop p dt k (j1, a1, b1)) as [[j2 a2] b2]. eapply kicked_trans; eauto.
Qed.
(** warm starting pushes what the accumulator says *)
Lemma joint_cached_bookkeeping j k a b : is_spring j = false -> let '(a', b') := j_cached j k a b in kicked b b' (vscale k (fst (pushed j))) (k * snd (pushed j)).
Proof.
  intros Hj. destruct j as [j|j|j|j|j|j|j|j|j|j]; try discriminate; cbn [j_cached pushed fst snd];
  try (unfold spin, gear_spin; unR; unfold kicked; f_equal; [unfold vscale; cbn [vx vy]; apply vec_eq; cbn [vx vy]; ring | ring]);
  match goal with |- context [apply_impulses ?a ?b ?r1 ?r2 ?J] => pose proof (apply_impulses_kicked a b r1 r2 J) as HP;
   destruct (apply_impulses a b r1 r2 J) as [? ?]; destruct HP as [_ HP];
   match type of HP with kicked _ _ ?J ?t => match goal with |- kicked _ _ ?J' ?t' =>
     replace J' with J; [replace t' with t; [exact HP|]|] end end end;
  unfold crossR, vscale, vmult; unR; cbn [vx vy]; try ring; apply vec_eq; cbn [vx vy]; ring.
Qed.
(** a spring's PreStep starts its accumulator with the impulse it applies *)
Lemma spring_prestep_bookkeeping p j dt a b : is_spring j = true -> let '(j', a', b') := j_prestep p j dt a b in kicked b b' (fst (pushed j')) (snd (pushed j')).
Proof.
  intros Hj. destruct j as [j|j|j|j|j|j|j|j|j|j]; try discriminate; cbn [j_prestep].
  - unfold spring_prestep; cbv zeta. 
    match goal with |- context [apply_impulses ?a ?b ?r1 ?r2 ?J] => pose proof (apply_impulses_kicked a b r1 r2 J) as HP; destruct (apply_impulses a b r1 r2 J) as [? ?]; destruct HP as [_ HP] end.
    cbn [pushed fst snd sp_jAcc sp_n sp_r2].
    match type of HP with kicked _ _ ?J ?t => match goal with |- kicked _ _ ?J' ?t' => replace J' with J; [replace t' with t; [exact HP|]|] end end.
    + f_equal. unfold vscale, vmult; unR; apply vec_eq; cbn [vx vy]; ring.
    + unfold vscale, vmult; unR; apply vec_eq; cbn [vx vy]; ring.
  - unfold rspring_prestep; cbv zeta. unfold spin. cbn [pushed fst snd rs_jAcc]. unfold kicked; cbn [vx vy]; unR. f_equal; [apply vec_eq; cbn [vx vy]; ring|ring].
Qed.

(** contacts: what the arbiter's impulses add up to *)
Fixpoint con_sum (n : RV) (l : list (Contact R)) : RV := match l with [] => mkV 0 0 | c :: l => vplus (vrotate n (mkV (c_jnAcc c) (c_jtAcc c))) (con_sum n l) end.
Lemma contact_step_kick n surf u a b c : let '(a', b', c') := contact_step n surf u a b c in
  let D := vminus (vrotate n (mkV (c_jnAcc c') (c_jtAcc c'))) (vrotate n (mkV (c_jnAcc c) (c_jtAcc c))) in
  lin_kick a a' (vscale (-1) D) /\ lin_kick b b' D.
Proof.
  unfold contact_step. cbv zeta. rewrite !rotate_n. unfold apply_bias_impulses, apply_impulses, lin_kick. ub. cbn [c_jnAcc c_jtAcc]. unR.
  set (x := nclamp _ _ _). set (y := Rmax _ _). clearbody x y.
  splits; auto; unfold vplus, vscale, vminus, vrotate; unR; cbn [vx vy]; apply vec_eq; cbn [vx vy]; ring.
Qed.

Lemma lin_kick_trans a b c J K : lin_kick a b J -> lin_kick b c K -> lin_kick a c (vplus J K).
Proof.
  unfold lin_kick. intros [E1 E2] [E3 E4]. rewrite E3, E1, E2, E4. split; auto. unfold vplus, vscale; apply vec_eq; cbn [vx vy]; ring.
Qed.
Lemma contacts_step_kick n surf u l : forall a b, let '(a', b', l') := contacts_step n surf u a b l in
  lin_kick a a' (vscale (-1) (vminus (con_sum n l') (con_sum n l))) /\ lin_kick b b' (vminus (con_sum n l') (con_sum n l)) /\ length l' = length l.
Proof.
  induction l as [|c l IH]; intros a b; cbn [contacts_step].
  - unfold lin_kick, vminus, vscale, vplus; cbn [vx vy con_sum]. splits; auto; apply vec_eq; cbn [vx vy]; ring.
  - pose proof (contact_step_kick n surf u a b c) as H. destruct (contact_step n surf u a b c) as [[a1 b1] c1]. cbv zeta in H. destruct H as [H1 H2].
    specialize (IH a1 b1). destruct (contacts_step n surf u a1 b1 l) as [[a2 b2] l2]. destruct IH as (I1 & I2 & I3).
    cbn [con_sum length]. splits; [| |lia].
    + pose proof (lin_kick_trans _ _ _ _ _ H1 I1) as H. match type of H with lin_kick _ _ ?J => match goal with |- lin_kick _ _ ?K => replace K with J; [exact H|] end end.
      unfold vplus, vscale, vminus; apply vec_eq; cbn [vx vy]; ring.
    + pose proof (lin_kick_trans _ _ _ _ _ H2 I2) as H. match type of H with lin_kick _ _ ?J => match goal with |- lin_kick _ _ ?K => replace K with J; [exact H|] end end.
      unfold vplus, vscale, vminus; apply vec_eq; cbn [vx vy]; ring.
Qed.
Lemma total_sum n l : forall s, fold_left (fun s con => vadd s (vrotate n (mkV (c_jnAcc con) (c_jtAcc con)))) l s = vplus s (con_sum n l).
Proof.
  induction l as [|c l IH]; intros s; cbn [fold_left con_sum].
  - unfold vplus; apply vec_eq; cbn [vx vy]; ring.
  - rewrite IH. unfold vplus, vadd; unR; apply vec_eq; cbn [vx vy]; ring.
Qed.
Lemma total_impulse_sum arb : live arb -> arb_total_impulse arb = vscale (if ar_swapped arb then 1 else -1) (con_sum (ar_n arb) (ar_contacts arb)).
Proof.
  intros [H1 H2]. unfold arb_total_impulse, arb_count. 
  replace (firstn _ (ar_contacts arb)) with (ar_contacts arb) by (destruct (ar_state arb); try contradiction; now rewrite firstn_all).
  rewrite total_sum. destruct (ar_swapped arb); unfold vscale, vplus, vneg, vzero; unR; apply vec_eq; cbn [vx vy]; ring.
Qed.
Lemma arb_loop_kick k : forall arb a b, live arb -> let '(arb', a', b') := arb_loop k (arb, a, b) in
  live arb' /\ ar_swapped arb' = ar_swapped arb /\
  let D := vminus (arb_total_impulse arb') (arb_total_impulse arb) in
  lin_kick (if ar_swapped arb then b else a) (if ar_swapped arb then b' else a') D /\
  lin_kick (if ar_swapped arb then a else b) (if ar_swapped arb then a' else b') (vscale (-1) D).
Proof.
  induction k as [|k IH]; intros arb a b HL; cbn [arb_loop].
  - splits; auto; unfold lin_kick, vminus, vscale, vplus; split; auto; apply vec_eq; cbn [vx vy]; ring.
  - unfold arb_apply_impulse. pose proof (contacts_step_kick (ar_n arb) (ar_surf arb) (ar_u arb) (ar_contacts arb) a b) as H.
    destruct (contacts_step _ _ _ a b _) as [[a1 b1] l1]. destruct H as (H1 & H2 & H3).
    assert (HL1 : live (arb_with arb l1)) by exact HL.
    specialize (IH (arb_with arb l1) a1 b1 HL1). destruct (arb_loop k (arb_with arb l1, a1, b1)) as [[arb2 a2] b2].
    destruct IH as (I1 & I2 & I3 & I4). change (ar_swapped (arb_with arb l1)) with (ar_swapped arb) in *.
    splits; auto; rewrite (total_impulse_sum arb HL), (total_impulse_sum arb2 I1), I2;
    rewrite (total_impulse_sum (arb_with arb l1) HL1), (total_impulse_sum arb2 I1), I2 in I3, I4;
    change (ar_contacts (arb_with arb l1)) with l1 in *; change (ar_n (arb_with arb l1)) with (ar_n arb) in *;
    change (ar_swapped (arb_with arb l1)) with (ar_swapped arb) in *;
    destruct (ar_swapped arb).
    all: match goal with |- lin_kick ?x ?y ?K => match goal with HA : lin_kick x ?z ?J, HB : lin_kick ?z y ?J' |- _ =>
      pose proof (lin_kick_trans _ _ _ _ _ HA HB) as HH; replace K with (vplus J J'); [exact HH|] end end;
      unfold vplus, vscale, vminus; apply vec_eq; cbn [vx vy]; ring.
Qed.

(** ** C55 *)
Lemma point_set_round_trip (arb : Arb R) a b : arb_set_point_set arb a b (arb_point_set arb a b) = arb.
Proof.
  unfold arb_set_point_set, arb_point_set. destruct arb as [e u surf n l sw st]. cbn [ar_e ar_u ar_surf ar_n ar_contacts ar_swapped ar_state].
  assert (N : (if sw then vneg (if sw then vneg n else n) else (if sw then vneg n else n)) = n).
  { destruct sw; auto. unfold vneg; unR; apply vec_eq; cbn [vx vy]; ring. }
  rewrite N. f_equal.
  assert (G : forall k l, set_points sw (b_p a) (b_p b) l (map (fun con => let p1 := vadd (b_p a) (c_r1 con) in let p2 := vadd (b_p b) (c_r2 con) in
       let d := vdot (vsub p2 p1) n in if sw then (p2, p1, d) else (p1, p2, d)) (firstn k l)) = l).
  { clear. induction k as [|k IH]; intros [|c l]; cbn [firstn map set_points]; auto.
    cbv zeta in IH |- *. destruct sw; rewrite IH; f_equal; destruct c as [z0 z1 z2 z3 z4 z5 z6 z7 z8 z9]; cbn [c_r1 c_r2 c_nMass c_tMass c_bounce c_jnAcc c_jtAcc c_jBias c_bias c_hash]; f_equal;
    unfold vsub, vadd; unR; apply vec_eq; cbn [vx vy]; ring. }
  apply G.
Qed.

(** ** PreStep: directions and effective masses *)
Lemma unit_scaled (g : RV) : g <> mkV 0 0 -> unit (vmult g (1 / norm g)).
Proof.
  intros Hg. assert (P : 0 < norm g).
  { destruct (norm_nonneg g) as [|E]; auto. exfalso. apply Hg. assert (norm2 g = 0) by (rewrite <- norm_sq, <- E; ring).
    destruct g as [x y]; unfold norm2 in *; cbn [vx vy] in *. assert (x = 0) by nra. assert (y = 0) by nra. now subst. }
  unfold unit. pose proof (norm_sq g) as S. unfold norm2, vmult in *; unR; cbn [vx vy] in *. set (n := norm g) in *. clearbody n.
  replace (vx g * (1 / n) * (vx g * (1 / n)) + vy g * (1 / n) * (vy g * (1 / n))) with ((vx g * vx g + vy g * vy g) / (n * n)) by (field; lra).
  rewrite <- S. field. lra.
Qed.
Lemma norm_pos_iff g : norm g = 0 <-> g = mkV 0 0.
Proof.
  split; [|intros ->; apply norm_zero]. intros E. assert (norm2 g = 0) by (rewrite <- norm_sq, E; ring).
  destruct g as [x y]; unfold norm2 in *; cbn [vx vy] in *. assert (x = 0) by nra. assert (y = 0) by nra. now subst.
Qed.
Lemma pin_prestep_spec (p : @Params R) j dt a b : let j' := pin_prestep p j dt a b in let g := anchor_gap a b (pin_A j) (pin_B j) in
  in_line a b (pin_r1 j') (pin_r2 j') (pin_n j') /\
  (g <> mkV 0 0 -> unit (pin_n j') /\ pin_nMass j' = / eff a b (pin_r1 j') (pin_r2 j') (pin_n j') /\
   pin_bias j' = nclamp (- bias_coef (errorBias p) dt * (norm g - pin_dist j) / dt) (- maxBias p) (maxBias p)).
Proof.
  cbv zeta. unfold pin_prestep. cbv zeta. cbn [pin_r1 pin_r2 pin_n pin_nMass pin_bias].
  set (r1 := t_vect (b_tr a) (vsub (pin_A j) (b_cog a))). set (r2 := t_vect (b_tr b) (vsub (pin_B j) (b_cog b))).
  assert (EG : vadd (b_p b) (vsub r2 (vadd (b_p a) r1)) = anchor_gap a b (pin_A j) (pin_B j)).
  { unfold r1, r2, anchor_gap, vminus, vplus, vadd, vsub. unR. apply vec_eq; cbn [vx vy]; ring. }
  rewrite EG. set (g := anchor_gap a b (pin_A j) (pin_B j)) in *. rewrite (vlen_norm g). unR.
  assert (IL : forall k, in_line a b r1 r2 (vmult g k)).
  { intros k. rewrite <- EG. unfold in_line, crossR, vminus, vplus, vmult, vadd, vsub; unR; cbn [vx vy]. ring. }
  split; [destruct (negb _); apply IL|]. intros Hg. destruct (Reqb_spec (norm g) 0) as [Z|Z]; [apply norm_pos_iff in Z; contradiction|].
  cbn [negb]. pose proof (unit_scaled g Hg) as U. splits; auto. rewrite k_scalar_eff by exact U. unfold Rdiv. ring.
Qed.
Lemma slide_prestep_line (p : @Params R) j dt a b : let j' := slide_prestep p j dt a b in in_line a b (sl_r1 j') (sl_r2 j') (sl_n j').
Proof.
  pose proof (slide_prestep_cases p j dt a b) as C. cbv zeta in *.
  assert (R1 : sl_r1 (slide_prestep p j dt a b) = t_vect (b_tr a) (vsub (sl_A j) (b_cog a)) /\ sl_r2 (slide_prestep p j dt a b) = t_vect (b_tr b) (vsub (sl_B j) (b_cog b))).
  { unfold slide_prestep. cbv zeta. destruct (nltb _ _); [split; reflexivity|]. destruct (nltb _ _); split; reflexivity. }
  destruct R1 as [-> ->].
  assert (IL : forall k, in_line a b (t_vect (b_tr a) (vsub (sl_A j) (b_cog a))) (t_vect (b_tr b) (vsub (sl_B j) (b_cog b))) (vscale k (anchor_gap a b (sl_A j) (sl_B j)))).
  { intros k. unfold in_line, crossR, anchor_gap, vminus, vplus, vscale, vsub; unR; cbn [vx vy]. ring. }
  destruct C as [(_ & -> & _)|[(_ & _ & -> & _)|(_ & _ & -> & _)]].
  - rewrite normalize_eq. apply IL.
  - rewrite normalize_eq. match goal with |- in_line _ _ _ _ (vneg (vscale ?k ?g)) => replace (vneg (vscale k g)) with (vscale (- k) g) by (unfold vneg, vscale; unR; apply vec_eq; cbn [vx vy]; ring) end. apply IL.
  - unfold in_line, crossR; cbn [vx vy]. ring.
Qed.
Lemma spring_prestep_line j dt a b : let '(j', _, _) := spring_prestep j dt a b in in_line a b (sp_r1 j') (sp_r2 j') (sp_n j').
Proof.
  unfold spring_prestep. cbv zeta. destruct (apply_impulses _ _ _ _ _). cbn [sp_r1 sp_r2 sp_n]. destruct (negb _); apply delta_in_line.
Qed.
