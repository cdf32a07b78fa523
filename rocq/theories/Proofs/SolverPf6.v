From Coq Require Import Reals ZArith Bool List Lra Lia Permutation Psatz.
From Flocq Require Import Core.Raux.
From Verif Require Import Num Spec SpecBody SpecSolver.
From Verif.Model Require Import Vector BB Transform Body Solver.
From Verif.Proofs Require Import RTac BBOrder Geom BodyPf SolverPf SolverPf2 SolverPf3 SolverPf4 SolverPf5.
Import ListNotations.
Local Open Scope R_scope.

Lemma aligned_arm b p : aligned b -> vsub p (t_point (b_tr b) (b_cog b)) = vminus p (b_p b).
Proof. intros A. pose proof (aligned_cog b A) as E. unfold b_local_to_world in E. now rewrite E. Qed.
Lemma aligned_idle b x : aligned b -> aligned (upd_idle b x).
Proof. unfold aligned, b_set_transform. intros E. exact E. Qed.
Lemma anchor_world b A : aligned b -> t_point (b_tr b) A = vplus (b_p b) (t_vect (b_tr b) (vminus A (b_cog b))).
Proof.
  intros H. destruct (aligned_tr b H) as (E1 & E2 & E3 & E4 & E5 & E6). unfold t_point, t_vect, vplus, vminus. rewrite E1, E2, E3, E4, E5, E6.
  apply vec_eq; unR; cbn [vx vy]; ring.
Qed.
Lemma anchor_gap_world a b A B : aligned a -> aligned b -> anchor_gap a b A B = vminus (t_point (b_tr b) B) (t_point (b_tr a) A).
Proof. intros Ha Hb. unfold anchor_gap. now rewrite <- !anchor_world. Qed.

Lemma shrink (eb dt e x : R) : dt <> 0 -> x = - bias_coef eb dt * e / dt -> e + dt * x = npow eb dt * e.
Proof. intros Hd ->. unfold bias_coef. unR. field. auto. Qed.
Lemma clamp_cases (x m : R) : 0 <= m -> Rabs (nclamp x (- m) m) <= m /\ (Rabs x <= m -> nclamp x (- m) m = x).
Proof.
  intros H. rewrite clampR by lra. split.
  - apply Rabs_le. unfold Rmax, Rmin. destruct (Rle_dec x m); destruct (Rle_dec _ _); lra.
  - intros A. apply Rabs_le_inv in A || (unfold Rabs in A; destruct (Rcase_abs x)). unfold Rmax, Rmin. destruct (Rle_dec x m); destruct (Rle_dec _ _); lra.
    all: unfold Rmax, Rmin; destruct (Rle_dec x m); destruct (Rle_dec _ _); lra.
Qed.

(** ** grooves *)
Lemma seg_closest (d : RV) (P Q X : RV) (s0 : R) : 0 <= s0 <= 1 -> X = seg_point P Q s0 ->
  forall A, (forall s, 0 <= s <= 1 -> 0 <= (s - s0) * inner (vminus X A) (vminus Q P)) ->
  forall s, 0 <= s <= 1 -> dist2 A X <= dist2 A (seg_point P Q s).
Proof.
  intros H0 -> A H s Hs. specialize (H s Hs). revert H. unfold inner, dist2, seg_point, vminus. cbn [vx vy]. intros H.
  pose proof (Rle_0_sqr ((s - s0) * (vx Q - vx P))) as S1. pose proof (Rle_0_sqr ((s - s0) * (vy Q - vy P))) as S2. unfold Rsqr in *. nra.
Qed.

Definition dir_of (n : RV) : RV := mkV (vy n) (- vx n).
Lemma rigid_unit t n : rigid t -> unit n -> unit (t_vect t n).
Proof.
  unfold rigid, unit, norm2, t_vect. intros (H1 & H2 & H3) U. unR. cbn [vx vy]. nra.
Qed.
Lemma rigid_dir t n : rigid t -> t_vect t (dir_of n) = dir_of (t_vect t n).
Proof. unfold rigid, dir_of, t_vect. intros (H1 & H2 & H3). unR. cbn [vx vy]. apply vec_eq; cbn [vx vy]; nra. Qed.
Lemma t_point_minus t p q : vminus (t_point t p) (t_point t q) = t_vect t (vminus p q).
Proof. unfold vminus, t_point, t_vect. unR. apply vec_eq; cbn [vx vy]; ring. Qed.
Lemma groove_point (ta tb A n : RV) (L : R) : unit n -> 0 < L -> vminus tb ta = vscale L (dir_of n) ->
  let d := dir_of n in
  let X := if Rleb (inner A d) (inner ta d) then ta else if Rleb (inner tb d) (inner A d) then tb
           else vplus (vscale (inner A d) d) (vscale (inner ta n) n) in
  on_segment ta tb X /\ (forall q, on_segment ta tb q -> dist2 A X <= dist2 A q).
Proof.
  intros U HL Hd d X.
  assert (EX : exists s0, 0 <= s0 <= 1 /\ X = seg_point ta tb s0 /\ forall s, 0 <= s <= 1 -> 0 <= (s - s0) * inner (vminus X A) (vminus tb ta)).
  { assert (Eb : inner tb d = inner ta d + L).
    { assert (E : inner (vminus tb ta) d = L) by (rewrite Hd; unfold inner, d, dir_of, vscale, unit, norm2 in *; cbn [vx vy]; nra).
      unfold inner, vminus in *. cbn [vx vy] in *. lra. }
    rewrite Hd. unfold X. destruct (Rleb_spec (inner A d) (inner ta d)) as [C1|C1]; [|destruct (Rleb_spec (inner tb d) (inner A d)) as [C2|C2]].
    - exists 0. split; [lra|]. split; [unfold seg_point; apply vec_eq; cbn [vx vy]; ring|]. intros s Hs.
      replace (inner (vminus ta A) (vscale L (dir_of n))) with (L * (inner ta d - inner A d)) by (unfold inner, vminus, vscale, d; cbn [vx vy]; ring).
      apply Rmult_le_pos; [lra|]. apply Rmult_le_pos; lra.
    - exists 1. split; [lra|]. split; [unfold seg_point; apply vec_eq; cbn [vx vy]; ring|]. intros s Hs.
      replace (inner (vminus tb A) (vscale L (dir_of n))) with (- (L * (inner A d - inner tb d))) by (unfold inner, vminus, vscale, d; cbn [vx vy]; ring).
      assert (0 <= L * (inner A d - inner tb d)) by (apply Rmult_le_pos; lra). nra.
    - set (s0 := (inner A d - inner ta d) / L). assert (S0 : s0 * L = inner A d - inner ta d) by (unfold s0; field; lra).
      exists s0. split; [split; [unfold s0; apply Rmult_le_pos; [lra|left; now apply Rinv_0_lt_compat]|apply Rmult_le_reg_r with L; auto; lra]|].
      assert (EX : vplus (vscale (inner A d) d) (vscale (inner ta n) n) = seg_point ta tb s0).
      { assert (W : ta = vplus (vscale (inner ta d) d) (vscale (inner ta n) n)).
        { unfold vplus, vscale, inner, d, dir_of. cbn [vx vy]. unfold unit, norm2 in U. apply vec_eq; cbn [vx vy].
          - transitivity (vx ta * (vx n * vx n + vy n * vy n)); [rewrite U; ring|ring].
          - transitivity (vy ta * (vx n * vx n + vy n * vy n)); [rewrite U; ring|ring]. }
        assert (D1 : vx tb - vx ta = L * vx d) by exact (f_equal (@vx R) Hd). assert (D2 : vy tb - vy ta = L * vy d) by exact (f_equal (@vy R) Hd).
        unfold seg_point. rewrite D1, D2. assert (W1 := f_equal (@vx R) W). assert (W2 := f_equal (@vy R) W). unfold vplus, vscale in *. cbn [vx vy] in W1, W2.
        assert (forall k, s0 * (L * k) = (inner A d - inner ta d) * k) as Ek by (intros k; rewrite <- S0; ring). rewrite !Ek.
        apply vec_eq; cbn [vx vy]; lra. }
      split; [exact EX|]. intros s Hs.
      replace (inner (vminus (vplus (vscale (inner A d) d) (vscale (inner ta n) n)) A) (vscale L (dir_of n))) with 0; [lra|].
      assert (N1 : inner d d = 1) by (unfold inner, d, dir_of, unit, norm2 in *; cbn [vx vy]; lra).
      assert (N2 : inner n d = 0) by (unfold inner, d, dir_of; cbn [vx vy]; ring).
      transitivity (L * (inner A d * inner d d + inner ta n * inner n d - inner A d)); [rewrite N1, N2; ring|].
      fold d. set (u := inner A d). set (v := inner ta n). unfold vminus, vplus, vscale, inner. cbn [vx vy]. unfold u at 2, inner. ring. }
  destruct EX as (s0 & H0 & E & Hs). split; [exists s0; auto|]. intros q (s & Hq & ->). now apply (seg_closest d ta tb X s0 H0 E).
Qed.
Lemma groove_prestep_spec (p : @Params R) j dt a b L : aligned a -> aligned b -> unit (gr_n j) -> 0 < L ->
  vminus (gr_b j) (gr_a j) = vscale L (dir_of (gr_n j)) ->
  let j' := groove_prestep p j dt a b in
  let wa := t_point (b_tr a) (gr_a j) in let wb := t_point (b_tr a) (gr_b j) in let wB := t_point (b_tr b) (gr_B j) in
  let X := vplus (b_p a) (gr_r1 j') in
  gr_r2 j' = vminus wB (b_p b) /\ unit (gr_tn j') /\ vminus wb wa = vscale L (dir_of (gr_tn j')) /\ on_segment wa wb X /\ (forall q, on_segment wa wb q -> dist2 wB X <= dist2 wB q) /\ (gr_clamp j' = 1 /\ X = wa \/ gr_clamp j' = -1 /\ X = wb \/ gr_clamp j' = 0) /\ gr_k j' = k_tensor a b (gr_r1 j') (gr_r2 j') /\ gr_bias j' = vclamp (vscale (- bias_coef (errorBias p) dt / dt) (vminus wB X)) (maxBias p).
Proof.
  intros Aa Ab U HL Hd j' wa wb wB X.
  set (n := t_vect (b_tr a) (gr_n j)).
  assert (Un : unit n) by (apply rigid_unit; auto; now apply aligned_rigid).
  assert (Hw : vminus wb wa = vscale L (dir_of n)).
  { unfold wb, wa, n. rewrite t_point_minus, Hd, <- rigid_dir by now apply aligned_rigid. unfold t_vect, vscale. unR. apply vec_eq; cbn [vx vy]; ring. }
  assert (R2 : vadd (b_p b) (t_vect (b_tr b) (vsub (gr_B j) (b_cog b))) = wB) by (unfold wB; rewrite (anchor_world b (gr_B j) Ab); reflexivity).
  assert (R2' : t_vect (b_tr b) (vsub (gr_B j) (b_cog b)) = vminus wB (b_p b)).
  { rewrite <- R2. unfold vminus, vadd. unR. apply vec_eq; cbn [vx vy]; ring. }
  assert (CR : forall x, vcross x n = inner x (dir_of n)) by (intros x; unfold vcross, inner, dir_of; unR; cbn [vx vy]; ring).
  pose proof (groove_point wa wb wB n L Un HL Hw) as G. cbv zeta in G.
  assert (KEY : gr_tn j' = n /\ gr_r2 j' = t_vect (b_tr b) (vsub (gr_B j) (b_cog b)) /\ X = (if Rleb (inner wB (dir_of n)) (inner wa (dir_of n)) then wa else if Rleb (inner wb (dir_of n)) (inner wB (dir_of n)) then wb
           else vplus (vscale (inner wB (dir_of n)) (dir_of n)) (vscale (inner wa n) n)) /\ (gr_clamp j' = 1 /\ X = wa \/ gr_clamp j' = -1 /\ X = wb \/ gr_clamp j' = 0) /\ gr_k j' = k_tensor a b (gr_r1 j') (gr_r2 j') /\ gr_bias j' = vclamp (vmult (vsub (vadd (b_p b) (gr_r2 j')) (vadd (b_p a) (gr_r1 j'))) (- bias_coef (errorBias p) dt / dt)) (maxBias p)).
  { unfold X, j', groove_prestep. cbv zeta. fold wa wb n. rewrite R2, !CR. unR.
    destruct (Rleb (inner wB (dir_of n)) (inner wa (dir_of n))); [|destruct (Rleb (inner wb (dir_of n)) (inner wB (dir_of n)))];
    cbn [gr_tn gr_r1 gr_r2 gr_clamp gr_k gr_bias]; rewrite ?R2; splits; auto.
    - unfold vplus, vsub; unR; apply vec_eq; cbn [vx vy]; ring.
    - left. split; auto. unfold vplus, vsub; unR; apply vec_eq; cbn [vx vy]; ring.
    - unfold vplus, vsub; unR; apply vec_eq; cbn [vx vy]; ring.
    - right; left. split; [reflexivity|]. unfold vplus, vsub; unR; apply vec_eq; cbn [vx vy]; ring.
    - unfold vplus, vscale, vsub, vadd, vmult, vperp, dir_of, vdot, inner; unR; apply vec_eq; cbn [vx vy]; ring. }
  destruct KEY as (K1 & K2 & K3 & K4 & K5 & K6). rewrite K1. rewrite <- K3 in G. destruct G as [G1 G2].
  splits; auto; [congruence|]. rewrite K6, K2, R2. f_equal. fold X. unfold X, vmult, vscale, vsub, vadd, vminus, vplus. unR. apply vec_eq; cbn [vx vy]; ring.
Qed.
Lemma pivot_prestep_spec (p : @Params R) j dt a b : aligned a -> aligned b -> dt <> 0 -> 0 <= maxBias p ->
  let j' := pivot_prestep p j dt a b in let e := anchor_gap a b (piv_A j) (piv_B j) in
  norm (piv_bias j') <= maxBias p /\
  (norm (vscale (- bias_coef (errorBias p) dt / dt) e) <= maxBias p -> vplus e (vscale dt (piv_bias j')) = vscale (npow (errorBias p) dt) e).
Proof.
  intros Aa Ab Hd Hm j' e.
  assert (E : piv_bias j' = vclamp (vscale (- bias_coef (errorBias p) dt / dt) e) (maxBias p)).
  { unfold j', pivot_prestep. cbv zeta. cbn [piv_bias]. f_equal. unfold e, anchor_gap, vmult, vscale, vsub, vadd, vminus, vplus. unR. apply vec_eq; cbn [vx vy]; ring. }
  rewrite E. split; [now apply vclamp_norm|]. intros H. rewrite vclamp_short by auto. unfold vplus, vscale, bias_coef. unR. apply vec_eq; cbn [vx vy]; field; auto.
Qed.
(** the scalar joints: one lemma about the clamped correction rate *)
Lemma rate_spec (p : @Params R) dt e : dt <> 0 -> 0 <= maxBias p ->
  let x := nclamp (- bias_coef (errorBias p) dt * e / dt) (- maxBias p) (maxBias p) in
  Rabs x <= maxBias p /\ (Rabs (bias_coef (errorBias p) dt * e / dt) <= maxBias p -> e + dt * x = npow (errorBias p) dt * e).
Proof.
  intros Hd Hm x. destruct (clamp_cases (- bias_coef (errorBias p) dt * e / dt) (maxBias p) Hm) as [C1 C2]. split; [exact C1|].
  intros H. unfold x. rewrite C2.
  - now apply shrink.
  - replace (- bias_coef (errorBias p) dt * e / dt) with (- (bias_coef (errorBias p) dt * e / dt)) by (unfold Rdiv; ring). now rewrite Rabs_Ropp.
Qed.
(** ** groove: one-sided, frictionless *)
Lemma groove_one_sided p dt j a b : 0 <= maxForce p * dt -> unit (gr_tn j) -> (gr_clamp j = 0 \/ gr_clamp j = 1 \/ gr_clamp j = -1) ->
  let '(j', _, _) := groove_apply p j dt a b in
  0 <= gr_clamp j * inner (gr_jAcc j') (dir_of (gr_tn j)) /\ (gr_clamp j = 0 -> inner (gr_jAcc j') (dir_of (gr_tn j)) = 0).
Proof.
  intros Hm U Hc. unfold groove_apply. cbv zeta. destruct (apply_impulses _ _ _ _ _). cbn [gr_jAcc].
  set (J := vadd _ _). unfold groove_constrain. unR.
  assert (CR : vcross J (gr_tn j) = inner J (dir_of (gr_tn j))) by (unfold vcross, inner, dir_of; unR; cbn [vx vy]; ring).
  set (J' := if Rltb 0 (gr_clamp j * vcross J (gr_tn j)) then J else vproject J (gr_tn j)).
  destruct (vclamp_dir J' (maxForce p * dt) Hm) as (k & Hk & E). change (vclamp J' (maxForce p * dt)) with (vclamp J' (maxForce p * dt)) in *.
  rewrite E. assert (I : inner (vscale k J') (dir_of (gr_tn j)) = k * inner J' (dir_of (gr_tn j))) by (unfold inner, vscale; cbn [vx vy]; ring). rewrite I.
  assert (PR : inner (vproject J (gr_tn j)) (dir_of (gr_tn j)) = 0) by (unfold vproject, inner, dir_of, vmult; unR; cbn [vx vy]; ring).
  unfold J'. destruct (Rltb 0 (gr_clamp j * vcross J (gr_tn j))) eqn:Q.
  - apply Rltb_true in Q. rewrite CR in Q. split; [|intros Z; rewrite Z in Q; lra]. replace (gr_clamp j * (k * inner J (dir_of (gr_tn j)))) with (k * (gr_clamp j * inner J (dir_of (gr_tn j)))) by ring. apply Rmult_le_pos; lra.
  - rewrite PR. split; [|intros; ring]. rewrite !Rmult_0_r. lra.
Qed.
(** ** springs *)
Lemma spring_prestep_spec j dt a b : let g := anchor_gap a b (sp_A j) (sp_B j) in g <> mkV 0 0 ->
  let '(j', a', b') := spring_prestep j dt a b in
  let k := eff a b (sp_r1 j') (sp_r2 j') (sp_n j') in
  unit (sp_n j') /\ g = vscale (norm g) (sp_n j') /\ lin_kick b b' (vscale (sp_force j (norm g) * dt) (sp_n j')) /\ lin_kick a a' (vscale (- (sp_force j (norm g) * dt)) (sp_n j')) /\
  sp_vCoef j' = 1 - exp (- sp_damp j * dt * k) /\ sp_nMass j' = / k /\ sp_target j' = 0.
Proof.
  intros g Hg. unfold spring_prestep. cbv zeta.
  set (r1 := t_vect (b_tr a) (vsub (sp_A j) (b_cog a))). set (r2 := t_vect (b_tr b) (vsub (sp_B j) (b_cog b))).
  assert (EG : vsub (vadd (b_p b) r2) (vadd (b_p a) r1) = g) by reflexivity. rewrite EG. rewrite (vlen_norm g).
  assert (Z : norm g <> 0) by (intros Z; now apply norm_pos_iff in Z). unR. destruct (Reqb_spec (norm g) 0) as [W|_]; [contradiction|]. cbn [negb].
  pose proof (unit_scaled g Hg) as U. set (n := vmult g (1 / norm g)) in *.
  pose proof (apply_impulses_kicked a b r1 r2 (vmult n (sp_force j (norm g) * dt))) as K.
  destruct (apply_impulses a b r1 r2 (vmult n (sp_force j (norm g) * dt))) as [a' b'] eqn:E. destruct K as [K1 K2]. cbn [sp_n sp_r1 sp_r2 sp_vCoef sp_nMass sp_target].
  rewrite (k_scalar_eff a b r1 r2 n U). splits; auto.
  - unfold n, vmult, vscale. unR. destruct g as [gx gy]; cbn [vx vy] in *. apply vec_eq; cbn [vx vy]; field; auto.
  - rewrite K2. unfold lin_kick, vplus, vscale, vmult. ub. unR. split; auto. apply vec_eq; cbn [vx vy]; ring.
  - rewrite K1. unfold lin_kick, vplus, vscale, vmult. ub. unR. split; auto. apply vec_eq; cbn [vx vy]; ring.
  - unfold Rdiv; ring.
Qed.
Lemma spring_damping j a b : unit (sp_n j) -> 0 < eff a b (sp_r1 j) (sp_r2 j) (sp_n j) -> sp_nMass j = / eff a b (sp_r1 j) (sp_r2 j) (sp_n j) ->
  let '(j', a', b') := spring_apply j a b in
  let v := inner (closing a b (sp_r1 j) (sp_r2 j)) (sp_n j) in
  inner (closing a' b' (sp_r1 j) (sp_r2 j)) (sp_n j) = sp_target j + (1 - sp_vCoef j) * (v - sp_target j) /\
  sp_target j' = sp_target j + (1 - sp_vCoef j) * (v - sp_target j).
Proof.
  intros U He Hn. unfold spring_apply. cbv zeta. unfold normal_relative_velocity. rewrite closing_eq. vdi. unR.
  set (v := inner (closing a b (sp_r1 j) (sp_r2 j)) (sp_n j)). set (J := (sp_target j - v) * sp_vCoef j * sp_nMass j).
  pose proof (apply_impulses_kicked a b (sp_r1 j) (sp_r2 j) (vmult (sp_n j) J)) as K.
  destruct (apply_impulses a b (sp_r1 j) (sp_r2 j) (vmult (sp_n j) J)) as [a' b']. destruct K as [K1 K2]. cbn [sp_target].
  split; [|unfold v; ring].
  assert (E : inner (closing a' b' (sp_r1 j) (sp_r2 j)) (sp_n j) = v + J * eff a b (sp_r1 j) (sp_r2 j) (sp_n j)).
  { rewrite K1, K2. unfold v, closing, point_velocity, inner, vminus, vscale, vmult, eff, norm2, crossR. ub. unR. cbn [vx vy]. ring. }
  rewrite E. unfold J. rewrite Hn. field. lra.
Qed.
Lemma rspring_step j dt a b : let '(j', a', b') := rspring_prestep j dt a b in
  kicked b b' (mkV 0 0) (rs_torque j (b_a a - b_a b) * dt) /\ kicked a a' (mkV 0 0) (- (rs_torque j (b_a a - b_a b) * dt)) /\
  rs_wCoef j' = 1 - exp (- rs_damp j * dt * (b_iinv a + b_iinv b)) /\ rs_iSum j' = / (b_iinv a + b_iinv b) /\ rs_target j' = 0.
Proof.
  unfold rspring_prestep, spin. cbv zeta. cbn [rs_wCoef rs_iSum rs_target]. unfold kicked. ub. unR. splits; auto.
  - f_equal; [apply vec_eq; cbn [vx vy]; ring|ring].
  - f_equal; [apply vec_eq; cbn [vx vy]; ring|ring].
  - unfold Rdiv; ring.
Qed.
Lemma rspring_damping j a b : b_iinv a + b_iinv b <> 0 -> rs_iSum j = / (b_iinv a + b_iinv b) ->
  let '(j', a', b') := rspring_apply j a b in
  b_w a' - b_w b' = rs_target j + (1 - rs_wCoef j) * (b_w a - b_w b - rs_target j) /\ rs_target j' = b_w a' - b_w b'.
Proof.
  intros H E. unfold rspring_apply, unspin. cbv zeta. cbn [rs_target]. ub. unR. rewrite E. split; field; auto.
Qed.
Lemma coef_range damp dt k : 0 <= damp -> 0 <= dt -> 0 <= k -> 0 <= 1 - exp (- damp * dt * k) < 1.
Proof.
  intros. assert (0 <= damp * dt * k) by (repeat apply Rmult_le_pos; auto). replace (- damp * dt * k) with (- (damp * dt * k)) by ring.
  set (x := damp * dt * k) in *. pose proof (exp_pos (- x)). split; [|lra].
  assert (exp (- x) <= exp 0); [|rewrite exp_0 in *; lra]. destruct (Req_dec x 0) as [->|]; [rewrite Ropp_0; lra|]. left. apply exp_increasing. lra.
Qed.
(** ** arbiter refresh *)
Lemma inherit_last (old : list (Contact R)) h acc :
  fold_left (fun acc o => if (h =? c_hash o)%Z then (c_jnAcc o, c_jtAcc o) else acc) old acc =
  match find (fun o => (h =? c_hash o)%Z) (rev old) with Some o => (c_jnAcc o, c_jtAcc o) | None => acc end.
Proof.
  revert acc. induction old as [|o old IH]; intros acc; [reflexivity|]. cbn [fold_left rev]. rewrite IH.
  assert (F : forall l, find (fun o => (h =? c_hash o)%Z) (l ++ [o]) = match find (fun o => (h =? c_hash o)%Z) l with Some x => Some x | None => if (h =? c_hash o)%Z then Some o else None end).
  { induction l as [|y l IHl]; cbn; auto. destruct (h =? c_hash y)%Z; auto. }
  rewrite F. destruct (find _ (rev old)); auto. destruct (h =? c_hash o)%Z; auto.
Qed.
Lemma inherit_spec (old : list (Contact R)) h :
  (forall o, In o old -> c_hash o <> h) -> inherit old h = (0, 0).
Proof.
  intros H. unfold inherit. rewrite inherit_last. destruct (find _ (rev old)) as [o|] eqn:F; auto.
  apply find_some in F as [F1 F2]. apply Z.eqb_eq in F2. exfalso. apply (H o); [now apply in_rev|congruence].
Qed.
Lemma inherit_unique (old : list (Contact R)) h o : In o old -> c_hash o = h -> NoDup (map c_hash old) -> inherit old h = (c_jnAcc o, c_jtAcc o).
Proof.
  intros Ho Hh ND. unfold inherit. rewrite inherit_last. destruct (find _ (rev old)) as [x|] eqn:F.
  - apply find_some in F as [F1 F2]. apply Z.eqb_eq in F2. apply in_rev in F1.
    assert (x = o); [|now subst]. revert Ho F1 ND. assert (c_hash x = c_hash o) as E by congruence. clear - E. induction old as [|y l IH]; [contradiction|].
    cbn. intros [->|Ho] [->|Hx] ND; auto; apply NoDup_cons_iff in ND as [N1 N2]; auto; exfalso; apply N1; [rewrite <- E|rewrite E]; now apply in_map.
  - exfalso. apply (find_none _ _ F o) in Ho || (pose proof (find_none _ _ F o) as W; rewrite <- in_rev in W; specialize (W Ho); cbn in W; rewrite Hh, Z.eqb_refl in W; discriminate).
Qed.
Lemma cached_kick (l : list (Contact R)) n k : forall a b, let '(a', b') := fold_left (fun '(a, b) con =>
     let j := vrotate n (mkV (c_jnAcc con) (c_jtAcc con)) in apply_impulses a b (c_r1 con) (c_r2 con) (vmult j k)) l (a, b) in
  lin_kick b b' (vscale k (con_sum n l)) /\ lin_kick a a' (vscale (- k) (con_sum n l)).
Proof.
  induction l as [|c l IH]; intros a b; cbn [fold_left].
  - cbn [con_sum]. unfold lin_kick, vplus, vscale. cbn [vx vy]. split; split; auto; apply vec_eq; cbn [vx vy]; ring.
  - cbv zeta. set (J := vrotate n (mkV (c_jnAcc c) (c_jtAcc c))). pose proof (apply_impulses_kicked a b (c_r1 c) (c_r2 c) (vmult J k)) as K.
    destruct (apply_impulses a b (c_r1 c) (c_r2 c) (vmult J k)) as [a1 b1]. destruct K as [K1 K2]. specialize (IH a1 b1). cbv zeta in IH.
    destruct (fold_left _ l (a1, b1)) as [a' b']. destruct IH as [[I1 I2] [I3 I4]]. cbn [con_sum]. fold J. clearbody J. unfold kicked in K1, K2. unfold lin_kick.
    rewrite I1, I2, I3, I4, K1, K2. ub. unfold vplus, vscale, vmult. unR. cbn [vx vy]. split; split; auto; apply vec_eq; cbn [vx vy]; ring.
Qed.

Lemma mobility_t a b r1 r2 n x y : inner (mobility a b r1 r2 (mkV (vx n * x - vy n * y) (vy n * x + vx n * y))) (mkV (- vy n) (vx n)) =
  y * eff a b r1 r2 (mkV (- vy n) (vx n)) + x * coupling a b r1 r2 n.
Proof. unfold mobility, inner, eff, coupling, norm2, crossR. cbn [vx vy]. ring. Qed.
Lemma contact_step_slip n surf u a b c : let '(a', b', c') := contact_step n surf u a b c in
  inner (closing a' b' (c_r1 c) (c_r2 c)) (mkV (- vy n) (vx n)) = inner (closing a b (c_r1 c) (c_r2 c)) (mkV (- vy n) (vx n))
     + (c_jtAcc c' - c_jtAcc c) * eff a b (c_r1 c) (c_r2 c) (mkV (- vy n) (vx n)) + (c_jnAcc c' - c_jnAcc c) * coupling a b (c_r1 c) (c_r2 c) n.
Proof.
  unfold contact_step. cbv zeta. rewrite closing_eq. rewrite rotate_n.
  match goal with |- context [apply_bias_impulses a b ?r1 ?r2 ?J] => pose proof (bias_conserves a b r1 r2 J) as HB;
     pose proof (bias_keeps_closing a b r1 r2 J r1 r2) as K1; 
     destruct (apply_bias_impulses a b r1 r2 J) as [a1 b1]; destruct HB as [(F1 & F2 & _) _] end.
  match goal with |- context [apply_impulses a1 b1 ?r1 ?r2 ?J] => pose proof (closing_after a1 b1 r1 r2 J) as K3; destruct (apply_impulses a1 b1 r1 r2 J) as [a2 b2] end.
  cbn [c_jnAcc c_jtAcc c_jBias]. rewrite K3, K1, inner_vplus, (mobility_ext a b a1 b1), mobility_t by auto. unR. ring.
Qed.
