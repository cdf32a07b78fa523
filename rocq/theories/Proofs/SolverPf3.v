From Coq Require Import Reals ZArith Bool List Lra Lia Permutation.
From Verif Require Import Num Spec SpecBody SpecSolver.
From Verif.Model Require Import Vector BB Transform Body Solver.
From Verif.Proofs Require Import RTac BBOrder Geom BodyPf SolverPf SolverPf2.
Import ListNotations.
Local Open Scope R_scope.
Ltac splits := repeat match goal with |- _ /\ _ => split end.

Definition withinR (m : R) (j : @Joint R) : Prop := 0 <= j_impulse j <= m.
Lemma within_R m j : within m j <-> withinR m j.
Proof. unfold within, withinR. unR. rewrite !Rleb_true. tauto. Qed.
Lemma vequal_zero (v : RV) : vequal v vzero = true <-> v = mkV 0 0.
Proof.
  unfold vequal, vzero. unR. cbn [vx vy]. destruct v as [x y]; cbn [vx vy]. rewrite andb_true_iff, !Reqb_true.
  split; [intros [-> ->]; reflexivity | now injection 1].
Qed.
Lemma ratchet_bound x m r : 0 <= m -> r <> 0 -> Rabs (nclamp (x * r) 0 (m * Rabs r) / r) <= m /\ 0 <= nclamp (x * r) 0 (m * Rabs r) / r * r.
Proof.
  intros Hm Hr. assert (Ha : 0 < Rabs r) by now apply Rabs_pos_lt.
  assert (HB : 0 <= nclamp (x * r) 0 (m * Rabs r) <= m * Rabs r).
  { rewrite clampR by nra. unfold Rmax, Rmin. destruct (Rle_dec _ _); destruct (Rle_dec _ _); nra. }
  set (k := nclamp (x * r) 0 (m * Rabs r)) in *. clearbody k.
  split; [|replace (k / r * r) with k by (field; auto); lra].
  unfold Rdiv. rewrite Rabs_mult, Rabs_inv, (Rabs_right k) by lra.
  apply Rmult_le_reg_r with (Rabs r); auto. rewrite Rmult_assoc, Rinv_l, Rmult_1_r by lra. lra.
Qed.

Definition keeps (m : R) (j : @Joint R) : Prop :=
  idle_ok m j /\ match j with JRatchet j => ra_ratchet j <> 0 | _ => True end.
Lemma joint_apply_within p dt j a b : is_spring j = false -> 0 <= maxForce p * dt -> keeps (maxForce p * dt) j ->
  let '(j', _, _) := j_apply p j dt a b in is_spring j' = false /\ keeps (maxForce p * dt) j' /\ withinR (maxForce p * dt) j'.
Proof.
  intros Hs Hm [Hi Hr]. set (M := maxForce p * dt) in *.
  destruct (scalar_joint j) eqn:Es.
  { pose proof (scalar_apply p dt j a b Es) as HH. unR. specialize (HH (proj2 (Rleb_true _ _) Hm) Hi).
    destruct (j_apply p j dt a b) as [[j' a'] b']. destruct HH as (H1 & H2 & H3). unfold keeps. rewrite <- within_R.
    destruct j'; try discriminate; repeat match goal with |- _ /\ _ => split end; auto. }
  destruct j as [j|j|j|j|j|j|j|j|j|j]; try discriminate; cbn [j_apply].
  - unfold pivot_apply. cbv zeta. destruct (apply_impulses _ _ _ _ _). unfold keeps; cbn [is_spring idle_ok]. repeat split; auto.
    + cbn [j_impulse piv_jAcc]. rewrite vlen_norm. apply norm_nonneg.
    + cbn [j_impulse piv_jAcc]. rewrite vlen_norm. apply vclamp_norm; auto.
  - unfold slide_apply. cbn [idle_ok] in Hi. destruct (vequal (sl_n j) vzero) eqn:E.
    + unfold keeps; cbn [is_spring idle_ok]. rewrite <- within_R. splits; auto.
    + cbv zeta. destruct (apply_impulses _ _ _ _ _).
      assert (W : withinR M (JSlide (mkSlide (sl_A j) (sl_B j) (sl_min j) (sl_max j) (sl_r1 j) (sl_r2 j) (sl_n j) (sl_nMass j)
        (nclamp (sl_jnAcc j + (sl_bias j - vdot (relative_velocity a b (sl_r1 j) (sl_r2 j)) (sl_n j)) * sl_nMass j) (- maxForce p * dt) nzero) (sl_bias j)))).
      { apply within_R. unfold within. cbn [j_impulse sl_jnAcc]. apply (clamp_abs_lo (T := R) _ M (- maxForce p * dt)); unR; rbool; fold M; try lra; unfold M in *; nra. }
      unR. unfold keeps; cbn [is_spring idle_ok]. splits; auto; intros; apply within_R; exact W.
  - unfold groove_apply. cbv zeta. destruct (apply_impulses _ _ _ _ _). unfold keeps; cbn [is_spring idle_ok]. repeat split; auto.
    + cbn [j_impulse gr_jAcc]. rewrite vlen_norm. apply norm_nonneg.
    + cbn [j_impulse gr_jAcc]. rewrite vlen_norm. unfold groove_constrain. apply vclamp_norm; auto.
  - unfold ratchet_apply. cbn [idle_ok] in Hi. destruct (neqb (ra_bias j) nzero) eqn:E.
    + unfold keeps; cbn [is_spring idle_ok]. rewrite <- within_R. splits; auto.
    + cbv zeta. destruct (spin _ _ _). unR. pose proof (ratchet_bound (ra_jAcc j + - (ra_bias j + (b_w b - b_w a)) * ra_iSum j) M _ Hm Hr) as [HB _].
      unfold keeps; cbn [is_spring idle_ok ra_ratchet]. fold M.
      assert (W : withinR M (JRatchet (mkRatchet (ra_angle j) (ra_phase j) (ra_ratchet j) (ra_iSum j) (ra_bias j)
         (nclamp ((ra_jAcc j + - (ra_bias j + (b_w b - b_w a)) * ra_iSum j) * ra_ratchet j) 0 (M * Rabs (ra_ratchet j)) / ra_ratchet j)))).
      { split; cbn [j_impulse ra_jAcc]; unR; [apply Rabs_pos|exact HB]. }
      splits; auto; intros; apply within_R; exact W.
Qed.
Lemma joint_iter_within p dt worlds : forall j, worlds <> [] -> is_spring j = false -> 0 <= maxForce p * dt -> keeps (maxForce p * dt) j ->
  withinR (maxForce p * dt) (joint_iterations p dt j worlds).
Proof.
  induction worlds as [|[a b] w IH]; intros j Hw Hs Hm Hk; [contradiction|]. cbn [joint_iterations].
  pose proof (joint_apply_within p dt j a b Hs Hm Hk) as H1. destruct (j_apply p j dt a b) as [[j' a'] b'].
  destruct H1 as (H1 & H2 & H3). destruct w; [exact H3|]. apply IH; auto. discriminate.
Qed.
Lemma normalize_nonzero v : v <> mkV 0 0 -> vnormalize v <> mkV 0 0.
Proof.
  intros Hv E. rewrite normalize_eq in E. pose proof (normalize_scale v) as K. apply Hv.
  destruct v as [x y]. unfold vscale in E; cbn [vx vy] in E. injection E; intros E1 E2.
  assert (x = 0) by nra. assert (y = 0) by nra. subst; reflexivity.
Qed.
Lemma norm_zero : norm (mkV 0 0) = 0.
Proof. unfold norm, norm2; cbn [vx vy]. replace (0*0+0*0) with 0 by ring. apply sqrt_0. Qed.
Lemma neg_nonzero (v : RV) : v <> mkV 0 0 -> vneg v <> mkV 0 0.
Proof.
  intros Hv E. apply Hv. destruct v as [x y]. unfold vneg in E; unR; cbn [vx vy] in E. injection E; intros.
  assert (x = 0) by lra. assert (y = 0) by lra. now subst.
Qed.
Lemma slide_prestep_cases (p : @Params R) j dt a b :
  let j' := slide_prestep p j dt a b in let g := anchor_gap a b (sl_A j) (sl_B j) in
  (sl_max j < norm g /\ sl_n j' = vnormalize g /\ sl_jnAcc j' = sl_jnAcc j) \/
  (norm g <= sl_max j /\ norm g < sl_min j /\ sl_n j' = vneg (vnormalize g) /\ sl_jnAcc j' = sl_jnAcc j) \/
  (norm g <= sl_max j /\ sl_min j <= norm g /\ sl_n j' = mkV 0 0 /\ sl_jnAcc j' = 0).
Proof.
  cbv zeta. unfold slide_prestep. cbv zeta.
  change (vsub (vadd (b_p b) (t_vect (b_tr b) (vsub (sl_B j) (b_cog b)))) (vadd (b_p a) (t_vect (b_tr a) (vsub (sl_A j) (b_cog a)))))
    with (anchor_gap a b (sl_A j) (sl_B j)).
  set (g := anchor_gap a b (sl_A j) (sl_B j)). rewrite (vlen_norm g). unR.
  destruct (Rltb_spec (sl_max j) (norm g)); [left; auto|].
  destruct (Rltb_spec (norm g) (sl_min j)); cbn [sl_n sl_jnAcc]; [right; left|right; right]; repeat split; auto; lra.
Qed.
Lemma joint_prestep_keeps (p : @Params R) dt j a b : is_spring j = false -> 0 <= maxForce p * dt -> sane_joint j a b ->
  (match j with JSlide j => 0 <= sl_max j | _ => True end) ->
  let '(j', _, _) := j_prestep p j dt a b in is_spring j' = false /\ keeps (maxForce p * dt) j'.
Proof.
  intros Hs Hm Hsane Hmax. set (M := maxForce p * dt) in *.
  destruct (scalar_joint j) eqn:Es.
  { pose proof (scalar_prestep p dt j a b Es) as HH. unR. specialize (HH (proj2 (Rleb_true _ _) Hm)).
    destruct (j_prestep p j dt a b) as [[j' a'] b']. destruct HH as (H1 & H2). unfold keeps.
    destruct j'; try discriminate; repeat match goal with |- _ /\ _ => split end; auto. }
  destruct j as [j|j|j|j|j|j|j|j|j|j]; try discriminate; cbn [j_prestep]; unfold keeps; cbn [is_spring idle_ok]; auto.
  - splits; auto. intros E. pose proof (slide_prestep_cases p j dt a b) as C. cbv zeta in C. cbn [sane_joint] in Hsane.
    apply vequal_zero in E. set (g := anchor_gap a b (sl_A j) (sl_B j)) in *.
    destruct C as [(C1 & C2 & _)|[(_ & C1 & C2 & _)|(_ & _ & _ & C2)]].
    + exfalso. rewrite C2 in E. revert E. apply normalize_nonzero. intros E. rewrite E, norm_zero in C1. lra.
    + exfalso. rewrite C2 in E. revert E. apply neg_nonzero, normalize_nonzero. auto.
    + apply within_R. split; cbn [j_impulse]; rewrite C2; unR; rewrite Rabs_R0; lra.
  - unfold ratchet_prestep. cbv zeta. cbn [sane_joint] in Hsane.
    match goal with |- context [if ?c then (?x1, ?y1) else (?x2, ?y2)] => destruct c end; cbn [ra_bias ra_ratchet];
    (splits; auto; intros ->; apply within_R; split; cbn [j_impulse ra_jAcc]; unR; rewrite Rabs_R0; lra).
Qed.
Lemma joint_step_within (p : @Params R) dt j a b worlds : worlds <> [] -> is_spring j = false -> 0 <= maxForce p * dt -> sane_joint j a b ->
  (match j with JSlide j => 0 <= sl_max j | _ => True end) -> withinR (maxForce p * dt) (joint_step p dt j a b worlds).
Proof.
  intros Hw Hs Hm Hsane Hx. unfold joint_step. pose proof (joint_prestep_keeps p dt j a b Hs Hm Hsane Hx) as H1.
  destruct (j_prestep p j dt a b) as [[j' a'] b']. destruct H1. now apply joint_iter_within.
Qed.

(** ** Velocities after an impulse *)
Lemma closing_eq a b r1 r2 : relative_velocity a b r1 r2 = closing a b r1 r2.
Proof.
  unfold relative_velocity, closing, vminus, point_velocity, vsub, vadd, vmult, vperp; unR. cbn [vx vy]. apply vec_eq; cbn [vx vy]; ring.
Qed.
(** the matrix of mobilities: how an impulse changes the closing velocity *)
Definition mobility (a b : Body R) (r1 r2 J : RV) : RV :=
  mkV (vx J * (b_minv a + b_minv b) - vy r1 * b_iinv a * crossR r1 J - vy r2 * b_iinv b * crossR r2 J)
      (vy J * (b_minv a + b_minv b) + vx r1 * b_iinv a * crossR r1 J + vx r2 * b_iinv b * crossR r2 J).
Lemma closing_after a b r1 r2 J : let '(a', b') := apply_impulses a b r1 r2 J in
  closing a' b' r1 r2 = vplus (closing a b r1 r2) (mobility a b r1 r2 J).
Proof.
  unfold apply_impulses, closing, point_velocity, vminus, vplus, mobility, crossR. ub. unR. apply vec_eq; cbn [vx vy]; ring.
Qed.
Lemma bias_closing_after a b r1 r2 J : let '(a', b') := apply_bias_impulses a b r1 r2 J in
  bias_closing a' b' r1 r2 = vplus (bias_closing a b r1 r2) (mobility a b r1 r2 J).
Proof.
  unfold apply_bias_impulses, bias_closing, bias_point_velocity, vminus, vplus, mobility, crossR. ub. unR. apply vec_eq; cbn [vx vy]; ring.
Qed.
Lemma bias_keeps_closing a b r1 r2 J r1' r2' : let '(a', b') := apply_bias_impulses a b r1 r2 J in closing a' b' r1' r2' = closing a b r1' r2'.
Proof. unfold apply_bias_impulses, closing, point_velocity. ub. reflexivity. Qed.
Lemma imp_keeps_bias_closing a b r1 r2 J r1' r2' : let '(a', b') := apply_impulses a b r1 r2 J in bias_closing a' b' r1' r2' = bias_closing a b r1' r2'.
Proof. unfold apply_impulses, bias_closing, bias_point_velocity. ub. reflexivity. Qed.
Lemma mobility_ext a b a' b' r1 r2 J : same_frame a a' -> same_frame b b' -> mobility a' b' r1 r2 J = mobility a b r1 r2 J.
Proof. intros (_ & E1 & _ & E2 & _) (_ & E3 & _ & E4 & _). unfold mobility. now rewrite E1, E2, E3, E4. Qed.
Lemma mobility_n a b r1 r2 n k t : inner (mobility a b r1 r2 (mkV (vx n * k - vy n * t) (vy n * k + vx n * t))) n =
  k * eff a b r1 r2 n + t * coupling a b r1 r2 n.
Proof. unfold inner, mobility, eff, coupling, crossR, norm2; cbn [vx vy]. ring. Qed.
Lemma k_scalar_eff a b r1 r2 n : unit n -> k_scalar a b r1 r2 n = eff a b r1 r2 n.
Proof.
  unfold unit. intros H. unfold k_scalar, k_scalar_body, eff, crossR. rewrite H. unR. unfold vcross. unR. ring.
Qed.
Lemma k_scalar_eff_near a b r1 r2 n : norm2 n <= 1 -> 0 <= b_minv a -> 0 <= b_minv b -> 0 <= b_iinv a -> 0 <= b_iinv b ->
  norm2 n * k_scalar a b r1 r2 n <= eff a b r1 r2 n <= k_scalar a b r1 r2 n.
Proof.
  intros Hn H1 H2 H3 H4. unfold k_scalar, k_scalar_body, eff, crossR, vcross. unR.
  set (x := vx r1 * vy n - vy r1 * vx n). set (y := vx r2 * vy n - vy r2 * vx n). clearbody x y.
  pose proof (norm2_nonneg n) as N. set (q := norm2 n) in *. clearbody q.
  assert (0 <= b_iinv a * (x * x)) by (apply Rmult_le_pos; auto; nra).
  assert (0 <= b_iinv b * (y * y)) by (apply Rmult_le_pos; auto; nra).
  split.
  - replace (q * (b_minv a + b_iinv a * x * x + (b_minv b + b_iinv b * y * y))) with
      (q * (b_minv a + b_minv b) + q * (b_iinv a * (x * x)) + q * (b_iinv b * (y * y))) by ring.
    nra.
  - nra.
Qed.

(** ** C36 *)
Lemma rotate_n n k t : vrotate n (mkV k t) = mkV (vx n * k - vy n * t) (vy n * k + vx n * t) :> RV.
Proof. unfold vrotate; unR; cbn [vx vy]. apply vec_eq; cbn [vx vy]; ring. Qed.
Lemma inner_vplus u v n : inner (vplus u v) n = inner u n + inner v n.
Proof. unfold inner, vplus; cbn [vx vy]. ring. Qed.
(** the exact effect of one contact step on the normal velocity *)
Lemma contact_step_velocity n surf u a b c : let '(a', b', c') := contact_step n surf u a b c in
  inner (closing a' b' (c_r1 c) (c_r2 c)) n = inner (closing a b (c_r1 c) (c_r2 c)) n
     + (c_jnAcc c' - c_jnAcc c) * eff a b (c_r1 c) (c_r2 c) n + (c_jtAcc c' - c_jtAcc c) * coupling a b (c_r1 c) (c_r2 c) n /\
  inner (bias_closing a' b' (c_r1 c) (c_r2 c)) n = inner (bias_closing a b (c_r1 c) (c_r2 c)) n
     + (c_jBias c' - c_jBias c) * eff a b (c_r1 c) (c_r2 c) n /\
  c_jnAcc c' = Rmax (c_jnAcc c - (c_bounce c + inner (vplus (closing a b (c_r1 c) (c_r2 c)) surf) n) * c_nMass c) 0 /\
  c_jBias c' = Rmax (c_jBias c + (c_bias c - inner (bias_closing a b (c_r1 c) (c_r2 c)) n) * c_nMass c) 0 /\
  c_jtAcc c' = nclamp (c_jtAcc c - inner (vplus (closing a b (c_r1 c) (c_r2 c)) surf) (mkV (- vy n) (vx n)) * c_tMass c) (- (u * c_jnAcc c')) (u * c_jnAcc c').
Proof.
  unfold contact_step. cbv zeta. rewrite closing_eq. rewrite rotate_n.
  match goal with |- context [apply_bias_impulses a b ?r1 ?r2 ?J] => pose proof (bias_conserves a b r1 r2 J) as HB;
     pose proof (bias_keeps_closing a b r1 r2 J r1 r2) as K1; pose proof (bias_closing_after a b r1 r2 J) as K2;
     destruct (apply_bias_impulses a b r1 r2 J) as [a1 b1]; destruct HB as [(F1 & F2 & _) _] end.
  match goal with |- context [apply_impulses a1 b1 ?r1 ?r2 ?J] => pose proof (closing_after a1 b1 r1 r2 J) as K3;
     pose proof (imp_keeps_bias_closing a1 b1 r1 r2 J r1 r2) as K4; destruct (apply_impulses a1 b1 r1 r2 J) as [a2 b2] end.
  cbn [c_jnAcc c_jtAcc c_jBias].
  repeat match goal with |- _ /\ _ => split end.
  - rewrite K3, K1, inner_vplus, (mobility_ext a b a1 b1), mobility_n by auto. unR. ring.
  - rewrite K4, K2, inner_vplus.
    match goal with |- context [vmult n ?k] => replace (vmult n k) with (mkV (vx n * k - vy n * 0) (vy n * k + vx n * 0)) by (unfold vmult; unR; apply vec_eq; cbn [vx vy]; ring) end.
    rewrite mobility_n. unR. ring.
  - unR. f_equal. rewrite vdot_inner. unfold vadd, vplus; unR. ring.
  - unR. f_equal. rewrite vdot_inner. unfold bias_closing, bias_point_velocity, vminus, vsub, vadd, vmult, vperp; unR. cbn [vx vy].
    unfold inner; cbn [vx vy]. ring.
  - vdi. unR. f_equal. unfold vadd, vplus, vperp; unR. ring.
Qed.
