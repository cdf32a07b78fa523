(** Kinetic energy under the solver (C123-C125). *)
From Coq Require Import Reals ZArith Bool List Lra Lia.
From Verif Require Import Num Spec SpecBody SpecSolver SpecStep SpecEnergy.
From Verif.Model Require Import Vector BB Transform Body Solver Step.
From Verif.Proofs Require Import RTac Geom BodyPf SolverPf SolverPf2 SolverPf3 SolverPf4 SolverPf5 StepPf StepMech StepRest EnergyPf.
Import ListNotations.
Local Open Scope R_scope.

(** ** C123 *)
(** Any sequence of solver actions, each of which is calm when it happens, between bodies of finite mass and the ground. *)
Theorem C123_actions : forall (l : list (nat * nat * action)) (w : world) ids, mechanical w ids -> Forall (act_ok ids) l -> all_calm w l ->
  total_energy (acts w l) ids <= total_energy w ids.
Proof. intros l w ids HM HO HC. apply (acts_cooler ids l w HM HO HC). Qed.
(** one contact, with friction: as long as the friction impulse already given is within the cone of the new normal impulse *)
Theorem C123_contact : forall n u a b c, 0 <= u -> c_bounce c = 0 -> 0 <= c_jnAcc c ->
  tuned (c_nMass c) (eff a b (c_r1 c) (c_r2 c) n) -> tuned (c_tMass c) (eff a b (c_r1 c) (c_r2 c) (quarter n)) ->
  (finite_mass a \/ fixed a) -> (finite_mass b \/ fixed b) ->
  let '(a', b', c') := contact_step n (mkV 0 0) u a b c in
  Rabs (c_jtAcc c) <= u * c_jnAcc c' -> b_kinetic_energy a' + b_kinetic_energy b' <= b_kinetic_energy a + b_kinetic_energy b.
Proof.
  intros n u a b c H1 H2 H3 H4 H5 Ha Hb. pose proof (contact_cools n u a b c H1 H2 H3 H4 H5) as G.
  destruct (contact_step n (mkV 0 0) u a b c) as [[a' b'] c']. intros H. rewrite !energy_E. now apply G.
Qed.
(** any number of iterations of the solver's loop over frictionless contacts and joints that correct nothing *)
Theorem C123_solver : forall ids dt n (w : world) arbs js, mechanical w ids -> between ids arbs -> between ids js ->
  Forall (smooth w) arbs -> Forall (slack dt w) js -> total_energy (fst (fst (iterate dt n (w, arbs, js)))) ids <= total_energy w ids.
Proof. intros ids dt n w arbs js H1 H2 H3 H4 H5. apply (iterate_cooler ids dt n w arbs js H1 H2 H3 H4 H5). Qed.
(** whole steps *)
Theorem C123_steps : forall se ids evs (s : Scene R), mechanical (sc_body s) ids -> undriven se s ids ->
  Forall (fun e => 0 < ev_dt e /\ between ids (ev_arbs e) /\ between ids (ev_cons e) /\
     (forall i k x, In (i, k, x) (ev_arbs e) -> smooth_arbiter x) /\ (forall i k c, In (i, k, c) (ev_cons e) -> slack_joint c)) evs ->
  total_energy (sc_body (steps se s evs)) ids <= total_energy (sc_body s) ids.
Proof.
  intros se ids evs. induction evs as [|e evs IH]; intros s HM HU HE; cbn [steps fold_left]; [lra|]. inversion HE as [|? ? (E1 & E2 & E3 & E4 & E5) HE']; subst.
  destruct (step_cooler se ids s e E1 HM HU E2 E3 E4 E5) as (M1 & U1 & L1). specialize (IH (step se s e) M1 U1 HE'). unfold steps in IH. lra.
Qed.
(** one bouncing contact: elasticity at most 1, any number of iterations *)
Theorem C123_bounce : forall (arb : Arb R) c a b k dt slop bias, ar_contacts arb = [c] -> c_jnAcc c = 0 -> c_jtAcc c = 0 -> ar_u arb = 0 -> ar_surf arb = mkV 0 0 ->
  norm2 (ar_n arb) <= 1 -> 0 <= ar_e arb <= 1 -> (finite_mass a \/ fixed a) -> (finite_mass b \/ fixed b) ->
  let '(_, a', b') := arb_loop k (arb_prestep arb dt slop bias a b, a, b) in b_kinetic_energy a' + b_kinetic_energy b' <= b_kinetic_energy a + b_kinetic_energy b.
Proof.
  intros arb c a b k dt slop bias H1 H2 H3 H4 H5 H6 H7 Ha Hb. pose proof (bounce arb c a b k dt slop bias H1 H2 H3 H4 H5 H6 H7 Ha Hb) as G.
  destruct (arb_loop k _) as [[arb' a'] b']. now rewrite !energy_E.
Qed.

(** a ball lands on the ground and drags a second body by a pin *)
Definition ground : Body R := mkBody 1 0 1 0 (mkV 0 0) (mkV 0 0) (mkV 0 0) (mkV 0 0) 0 0 0 t_identity (mkV 0 0) 0 [] 0.
Definition faller : Body R := mkBody 1 1 1 1 (mkV 0 0) (mkV 0 1) (mkV 1 (-1)) (mkV 0 0) 0 0 0 t_identity (mkV 0 0) 0 [] 0.
Definition towed : Body R := mkBody 2 (/ 2) 1 1 (mkV 0 0) (mkV 3 1) (mkV 0 0) (mkV 0 0) 0 0 0 t_identity (mkV 0 0) 0 [] 0.
Definition landing : Event R := mkEvent (1 / 60) [1; 2]%nat
  [((0, 1)%nat, mkArb 0 0 (mkV 0 0) (mkV 0 1) [mkCon (mkV 0 0) (mkV 0 (-1)) 0 0 0 0 0 0 0 0%Z] false FirstCollision)]
  [((1, 2)%nat, (mkP 1000 1 10, JPin (new_pin faller towed (mkV 0 0) (mkV 0 0))))].
Definition yard : Scene R := mkScene (fun i => match i with 0%nat => ground | 1%nat => faller | _ => towed end) [1; 2]%nat [] [] (1 / 60).
Definition vacuum : Settings R := mkSettings (mkV 0 0) (1 / 2) (1 / 10) (1 / 2) 10.
Example C123_nonvacuous : let ids := [0; 1; 2]%nat in let e := landing in mechanical (sc_body yard) ids /\ undriven vacuum yard ids /\ 0 < ev_dt e /\ between ids (ev_arbs e) /\ between ids (ev_cons e) /\
  (forall i k x, In (i, k, x) (ev_arbs e) -> smooth_arbiter x) /\ (forall i k c, In (i, k, c) (ev_cons e) -> slack_joint c) /\ total_energy (sc_body yard) ids = 2.
Proof.
  cbv zeta.
  split. { split; [repeat constructor; cbn; intuition lia|]. intros i [<-|[<-|[<-|[]]]]; cbn [sc_body yard].
    - right. split; [split; reflexivity|split; reflexivity]. - left. unfold finite_mass, faller; cbn [b_m b_minv b_i b_iinv]. splits; lra. - left. unfold finite_mass, towed; cbn [b_m b_minv b_i b_iinv]. splits; lra. }
  split. { split; [reflexivity|]. split; [cbn; lra|]. intros i [<-|[<-|[<-|[]]]]; split; reflexivity. }
  split; [cbn; lra|].
  split. { intros i k x [H|[]]; injection H as <- <- _; cbn; intuition lia. }
  split. { intros i k x [H|[]]; injection H as <- <- _; cbn; intuition lia. }
  split. { intros i k x [H|[]]; injection H as _ _ <-. unfold smooth_arbiter. cbn [ar_e ar_u ar_surf ar_n ar_contacts]. splits; auto; try lra. unfold norm2; cbn [vx vy]; lra. }
  split. { intros i k x [H|[]]; injection H as _ _ <-. unfold slack_joint. cbn [maxForce errorBias maxBias new_pin pin_jnAcc]. splits; try lra. reflexivity. }
  rewrite total_E. cbn [fold_right yard sc_body]. unfold E, ground, faller, towed, norm2. cbn [b_m b_v b_i b_w vx vy]. lra.
Qed.

(** ** C124 *)
(** A bead slides along a straight groove, its anchor off the centre of gravity, its velocity exactly along the groove: nothing
    needs correcting.  The joint pushes it out of the groove and adds energy, however many iterations it gets. *)
Definition bead : Body R := mkBody 1 1 1 1 (mkV 0 0) (mkV (-1) (-1)) (mkV 1 0) (mkV 0 0) 0 0 0 (mkT 1 0 0 1 (-1) (-1)) (mkV 0 0) 0 [] 0.
Definition rail : @Groove R := new_groove (mkV (-10) 0) (mkV 10 0) (mkV 1 1).
Definition limits : @Params R := mkP 6000 (1 / 2) 1000.
Definition s20 : R := 20 * (1 / (20 + 1 / 1000000000000000)).
Lemma s20_pos : 0 < s20. Proof. unfold s20, Rdiv. apply Rmult_lt_0_compat; [lra|]. rewrite Rmult_1_l. apply Rinv_0_lt_compat. lra. Qed.
Definition held (jAcc : RV) : @Groove R := mkGroove (mkV 0 s20) (mkV (-10) 0) (mkV 10 0) (mkV 1 1) (mkV 0 s20) 0 (mkV 0 0) (mkV 1 1) (mkM (2/3) (1/3) (1/3) (2/3)) jAcc (mkV 0 0).
Lemma rail_eq : rail = mkGroove (mkV 0 s20) (mkV (-10) 0) (mkV 10 0) (mkV 1 1) (mkV 0 0) 0 (mkV 0 0) (mkV 0 0) (mkM 0 0 0 0) (mkV 0 0) (mkV 0 0).
Proof.
  unfold rail, new_groove. f_equal. rewrite normalize_eq. unfold vsub; unR; cbn [vx vy]. replace (mkV (10 - -10) (0 - 0)) with (mkV 20 0 : RV) by (apply vec_eq; cbn [vx vy]; ring).
  assert (N : norm (mkV 20 0) = 20) by (unfold norm, norm2; cbn [vx vy]; replace (20 * 20 + 0 * 0) with (20 * 20) by ring; apply sqrt_square; lra).
  rewrite N. unfold vperp, vscale, s20; unR; cbn [vx vy]. apply vec_eq; cbn [vx vy]; unR; field.
Qed.
Lemma prepared_eq : groove_prestep limits rail (1 / 60) ground bead = held (mkV 0 0).
Proof.
  pose proof s20_pos as P. rewrite rail_eq. unfold groove_prestep. cbn [gr_n gr_a gr_b gr_B gr_jAcc ground bead b_tr b_p b_cog].
  unfold t_point, t_vect, t_identity. unR. cbn [ta tb tc td ttx tty vx vy]. unfold vdot, vcross, vadd, vsub. unR. cbn [vx vy].
  match goal with |- context [Rleb ?x ?y] => replace (Rleb x y) with false by (symmetry; apply Rleb_false; nra) end.
  match goal with |- context [Rleb ?x ?y] => replace (Rleb x y) with false by (symmetry; apply Rleb_false; nra) end.
  unfold vmult, vperp. unR. cbn [vx vy]. unfold held. f_equal; try (apply vec_eq; cbn [vx vy]; ring).
  - match goal with |- k_tensor _ _ ?x ?y = _ => replace x with (mkV 0 0 : RV) by (apply vec_eq; cbn [vx vy]; ring); replace y with (mkV 1 1 : RV) by (apply vec_eq; cbn [vx vy]; ring) end.
    unfold k_tensor. unR. cbn [vx vy b_minv b_iinv ground bead]. match goal with |- context [1 / ?d] => replace d with 3 by ring end. f_equal; lra.
  - match goal with |- vclamp ?v _ = _ => replace v with (mkV 0 0 : RV) by (apply vec_eq; cbn [vx vy]; ring) end. apply vclamp_short. rewrite norm_zero. cbn [limits maxBias]. lra.
Qed.
Definition pushed_bead : Body R := mkBody 1 1 1 1 (mkV 0 0) (mkV (-1) (-1)) (mkV 1 (-1/3)) (mkV 0 0) 0 (-1/3) 0 (mkT 1 0 0 1 (-1) (-1)) (mkV 0 0) 0 [] 0.
Lemma groove_project x y : groove_constrain limits (held (mkV 0 0)) (mkV x y) (1 / 60) = vclamp (mkV 0 y) 100.
Proof.
  pose proof s20_pos as P. unfold groove_constrain, held. cbn [gr_tn gr_clamp limits maxForce]. unR. rewrite Rmult_0_l. replace (Rltb 0 0) with false by (symmetry; apply Rltb_false; lra).
  f_equal; [|field]. unfold vproject, vmult, vdot; unR; cbn [vx vy]. apply vec_eq; cbn [vx vy]; field; lra.
Qed.
Lemma small_clamp y : Rabs y <= 100 -> vclamp (mkV 0 y : RV) 100 = mkV 0 y.
Proof. intros H. apply vclamp_short. unfold norm, norm2; cbn [vx vy]. replace (0 * 0 + y * y) with (Rsqr y) by (unfold Rsqr; ring). now rewrite sqrt_Rsqr_abs. Qed.
Lemma constrain_acc j v x y : groove_constrain limits (held j) (mkV x y) v = groove_constrain limits (held (mkV 0 0)) (mkV x y) v.
Proof. reflexivity. Qed.
Lemma first_push : groove_apply limits (held (mkV 0 0)) (1 / 60) ground bead = (held (mkV 0 (-1/3)), ground, pushed_bead).
Proof.
  unfold groove_apply. cbv zeta. rewrite closing_eq.
  assert (X : vadd (gr_jAcc (held (mkV 0 0))) (mat_transform (gr_k (held (mkV 0 0))) (vsub (gr_bias (held (mkV 0 0))) (closing ground bead (gr_r1 (held (mkV 0 0))) (gr_r2 (held (mkV 0 0)))))) = mkV (-2/3) (-1/3)).
  { unfold held, mat_transform, closing, point_velocity, vminus, vsub, vadd, ground, bead. unR. cbn [gr_jAcc gr_k gr_bias gr_r1 gr_r2 m_a m_b m_c m_d vx vy b_v b_w]. apply vec_eq; cbn [vx vy]; field. }
  rewrite X, groove_project, small_clamp by (unfold Rabs; destruct (Rcase_abs _); lra).
  unfold apply_impulses, held, ground, bead, pushed_bead, vsub, upd_vel. unR. cbn [gr_jAcc gr_k gr_bias gr_r1 gr_r2 gr_n gr_a gr_b gr_B gr_tn gr_clamp vx vy b_m b_minv b_i b_iinv b_cog b_p b_v b_f b_a b_w b_t b_tr b_vbias b_wbias b_shapes b_idle].
  f_equal; [f_equal|]; f_equal; try (apply vec_eq; cbn [vx vy]; field); field.
Qed.
Lemma next_push : groove_apply limits (held (mkV 0 (-1/3))) (1 / 60) ground pushed_bead = (held (mkV 0 (-1/3)), ground, pushed_bead).
Proof.
  unfold groove_apply. cbv zeta. rewrite closing_eq. set (h := held (mkV 0 (-1/3))).
  assert (X : vadd (gr_jAcc h) (mat_transform (gr_k h) (vsub (gr_bias h) (closing ground pushed_bead (gr_r1 h) (gr_r2 h)))) = mkV (-2/3) (-1/3)).
  { unfold h, held, mat_transform, closing, point_velocity, vminus, vsub, vadd, ground, pushed_bead. unR. cbn [gr_jAcc gr_k gr_bias gr_r1 gr_r2 m_a m_b m_c m_d vx vy b_v b_w]. apply vec_eq; cbn [vx vy]; field. }
  rewrite X. unfold h. rewrite constrain_acc, groove_project, small_clamp by (unfold Rabs; destruct (Rcase_abs _); lra).
  unfold apply_impulses, held, ground, pushed_bead, vsub, upd_vel. unR. cbn [gr_jAcc gr_k gr_bias gr_r1 gr_r2 gr_n gr_a gr_b gr_B gr_tn gr_clamp vx vy b_m b_minv b_i b_iinv b_cog b_p b_v b_f b_a b_w b_t b_tr b_vbias b_wbias b_shapes b_idle].
  f_equal; [f_equal|]; f_equal; try (apply vec_eq; cbn [vx vy]; field); field.
Qed.
Lemma later_pushes k : joint_loop limits (1 / 60) k (JGroove (held (mkV 0 (-1/3))), ground, pushed_bead) = (JGroove (held (mkV 0 (-1/3))), ground, pushed_bead).
Proof. induction k as [|k IH]; cbn [joint_loop j_apply]; auto. now rewrite next_push. Qed.
Theorem C124_groove_refuted : let a := ground in let b := bead in let j := groove_prestep limits rail (1 / 60) a b in
  fixed a /\ finite_mass b /\
  (* the anchor is inside the groove and moves along it; there is no error to correct *)
  t_point (b_tr b) (gr_B rail) = seg_point (gr_a rail) (gr_b rail) (1 / 2) /\ point_velocity b (gr_r2 j) = mkV 1 0 /\ gr_bias j = mkV 0 0 /\ gr_jAcc j = mkV 0 0 /\
  (* after any number of iterations it moves across the groove, and there is more energy *)
  forall k, (0 < k)%nat -> let '(_, a', b') := joint_loop limits (1 / 60) k (JGroove j, a, b) in
    vy (point_velocity b' (gr_r2 j)) = - (2 / 3) /\ b_kinetic_energy a' + b_kinetic_energy b' = 11 / 9 /\ b_kinetic_energy a + b_kinetic_energy b = 1.
Proof.
  cbv zeta. rewrite prepared_eq. cbn [gr_r2 gr_bias gr_jAcc held].
  split; [split; [split; reflexivity|split; reflexivity]|].
  split; [unfold finite_mass, bead; cbn [b_m b_minv b_i b_iinv]; splits; lra|].
  split; [rewrite rail_eq; unfold t_point, seg_point, bead; unR; cbn [b_tr gr_B gr_a gr_b ta tb tc td ttx tty vx vy]; apply vec_eq; cbn [vx vy]; field|].
  split; [unfold point_velocity, bead; cbn [b_v b_w vx vy]; apply vec_eq; cbn [vx vy]; ring|]. split; [reflexivity|]. split; [reflexivity|].
  intros [|k] Hk; [lia|]. cbn [joint_loop j_apply]. change (mkGroove (mkV 0 s20) _ _ _ _ _ _ _ _ _ _) with (held (mkV 0 0)). rewrite first_push, later_pushes.
  rewrite !energy_E. unfold E, point_velocity, ground, bead, pushed_bead, norm2. cbn [b_v b_w b_m b_i vx vy]. splits; lra.
Qed.

(** ** C125 *)
(** A box falls flat on the ground, perfectly elastic (e = 1), no friction, one iteration: it leaves with more energy than it came with. *)
Definition box : Body R := mkBody 1 1 2 (/ 2) (mkV 0 0) (mkV 0 1) (mkV 0 (-1)) (mkV 0 0) 0 0 0 (mkT 1 0 0 1 0 1) (mkV 0 0) 0 [] 0.
Definition flat_hit : Arb R := mkArb 1 0 (mkV 0 0) (mkV 0 1) [mkCon (mkV (-1) 0) (mkV (-1) (-1)) 0 0 0 0 0 0 0 1%Z; mkCon (mkV 1 0) (mkV 1 (-1)) 0 0 0 0 0 0 0 2%Z] false FirstCollision.
Lemma frictionless_step a b r1 r2 m t bo h : 0 <= - (bo + inner (closing a b r1 r2) (mkV 0 1)) * m -> b_vbias a = mkV 0 0 -> b_wbias a = 0 -> b_vbias b = mkV 0 0 -> b_wbias b = 0 ->
  contact_step (mkV 0 1) (mkV 0 0) 0 a b (mkCon r1 r2 m t bo 0 0 0 0 h) =
  let J := - (bo + inner (closing a b r1 r2) (mkV 0 1)) * m in let '(a', b') := apply_impulses a b r1 r2 (mkV 0 J) in (a', b', mkCon r1 r2 m t bo J 0 0 0 h).
Proof.
  intros HJ Z1 Z2 Z3 Z4. unfold contact_step. cbn [c_nMass c_r1 c_r2 c_bias c_jBias c_bounce c_jnAcc c_jtAcc c_tMass c_hash]. rewrite closing_eq, Z1, Z2, Z3, Z4. cbv zeta.
  set (X := closing a b r1 r2) in *. set (J := - (bo + inner X (mkV 0 1)) * m) in *.
  match goal with |- context [apply_bias_impulses a b r1 r2 ?v] => replace v with (mkV 0 0 : RV) end.
  2:{ unfold vmult, vdot, vsub, vadd, vperp; unR; cbn [vx vy]. match goal with |- context [Rmax ?x 0] => replace x with 0 by ring end. rewrite Rmax_left by lra. apply vec_eq; cbn [vx vy]; ring. }
  rewrite StepRest.bias_zero.
  match goal with |- context [nmul 0 (nmax ?x nzero)] => replace (nmax x nzero) with J end.
  2:{ unfold vdot, vadd; unR; cbn [vx vy]. unfold J, inner in *. cbn [vx vy] in *. symmetry. etransitivity; [|apply Rmax_left; exact HJ]. f_equal. ring. }
  match goal with |- context [nclamp ?x ?y ?z] => replace (nclamp x y z) with 0 end.
  2:{ symmetry. unR. rewrite Rmult_0_l, Ropp_0, clampR by lra. unfold Rmin, Rmax; repeat destruct (Rle_dec _ _); lra. }
  rewrite rotate_n. match goal with |- context [apply_impulses a b r1 r2 ?v] => replace v with (mkV 0 J : RV) by (unR; apply vec_eq; cbn [vx vy]; ring) end.
  destruct (apply_impulses a b r1 r2 (mkV 0 J)) as [a' b']. f_equal. f_equal. unfold vdot, vsub, vadd, vperp, vmult; unR; cbn [vx vy]. match goal with |- Rmax ?x 0 = 0 => replace x with 0 by ring end. apply Rmax_left. lra.
Qed.

Theorem C125_elastic_refuted : fixed ground /\ finite_mass box /\ ar_e flat_hit = 1 /\ ar_u flat_hit = 0 /\ unit (ar_n flat_hit) /\
  let '(_, a', b') := arb_loop 1 (arb_prestep flat_hit (1 / 60) (1 / 10) (1 / 2) ground box, ground, box) in
  b_kinetic_energy ground + b_kinetic_energy box = 1 /\ b_kinetic_energy a' + b_kinetic_energy b' = 129 / 81.
Proof.
  split; [split; [split; reflexivity|split; reflexivity]|]. split; [unfold finite_mass, box; cbn [b_m b_minv b_i b_iinv]; splits; lra|].
  split; [reflexivity|]. split; [reflexivity|]. split; [unfold unit, norm2; cbn [ar_n flat_hit vx vy]; lra|].
  assert (C1 : forall x h, x * x = 1 -> con_prestep flat_hit (1 / 60) (1 / 10) (1 / 2) ground box (mkCon (mkV x 0) (mkV x (-1)) 0 0 0 0 0 0 0 h) = mkCon (mkV x 0) (mkV x (-1)) (2/3) (2/3) (-1) 0 0 0 0 h).
  { intros x h Hx. unfold con_prestep. cbn [c_r1 c_r2 c_jnAcc c_jtAcc c_hash]. rewrite normal_rel. unfold k_scalar, k_scalar_body, closing, point_velocity, vminus, inner, vcross, vperp, vdot, vadd, vsub, flat_hit, ground, box. unR.
    cbn [ar_n ar_e vx vy b_v b_w b_minv b_iinv b_p]. f_equal; try lra.
    - match goal with |- 1 / ?d = _ => replace d with (1 + / 2 * (x * x)) by ring end. rewrite Hx. lra.
    - match goal with |- 1 / ?d = _ => replace d with (3 / 2) by lra end. lra.
    - rewrite Rmin_left by lra. unfold Rdiv. ring. }
  unfold arb_prestep. cbn [ar_contacts flat_hit map]. rewrite !C1 by ring. unfold arb_with. cbn [arb_loop]. unfold arb_apply_impulse. cbn [ar_n ar_surf ar_u ar_contacts contacts_step flat_hit].
  assert (V1 : inner (closing ground box (mkV (-1) 0) (mkV (-1) (-1))) (mkV 0 1) = -1) by (unfold inner, closing, point_velocity, vminus, ground, box; cbn [b_v b_w vx vy]; ring).
  rewrite frictionless_step; try reflexivity; [|rewrite V1; lra]. cbv zeta. rewrite V1.
  set (box1 := mkBody 1 1 2 (/ 2) (mkV 0 0) (mkV 0 1) (mkV 0 (1/3)) (mkV 0 0) 0 (-2/3) 0 (mkT 1 0 0 1 0 1) (mkV 0 0) 0 [] 0 : Body R).
  replace (apply_impulses ground box (mkV (-1) 0) (mkV (-1) (-1)) (mkV 0 (- (-1 + -1) * (2 / 3)))) with (ground, box1).
  2:{ unfold apply_impulses, ground, box, box1, upd_vel. unR. cbn [vx vy b_m b_minv b_i b_iinv b_cog b_p b_v b_f b_a b_w b_t b_tr b_vbias b_wbias b_shapes b_idle]. f_equal; f_equal; try (apply vec_eq; cbn [vx vy]; lra); lra. }
  assert (V2 : inner (closing ground box1 (mkV 1 0) (mkV 1 (-1))) (mkV 0 1) = -1/3) by (unfold inner, closing, point_velocity, vminus, ground, box1; cbn [b_v b_w vx vy]; lra).
  cbv iota beta. rewrite frictionless_step; try reflexivity; [|rewrite V2; lra]. cbv zeta. rewrite V2.
  set (box2 := mkBody 1 1 2 (/ 2) (mkV 0 0) (mkV 0 1) (mkV 0 (11/9)) (mkV 0 0) 0 (-2/9) 0 (mkT 1 0 0 1 0 1) (mkV 0 0) 0 [] 0 : Body R).
  replace (apply_impulses ground box1 (mkV 1 0) (mkV 1 (-1)) (mkV 0 (- (-1 + -1/3) * (2 / 3)))) with (ground, box2).
  2:{ unfold apply_impulses, ground, box1, box2, upd_vel. unR. cbn [vx vy b_m b_minv b_i b_iinv b_cog b_p b_v b_f b_a b_w b_t b_tr b_vbias b_wbias b_shapes b_idle]. f_equal; f_equal; try (apply vec_eq; cbn [vx vy]; lra); lra. }
  cbv iota beta. rewrite !energy_E. unfold E, ground, box, box2, norm2. cbn [b_v b_w b_m b_i vx vy]. split; lra.
Qed.
(** When the normal impulse is taken back, the friction impulse is taken back with it: that iteration adds energy. *)
Theorem C125_friction_refuted : exists n u a b c, unit n /\ fixed a /\ finite_mass b /\ 0 <= u /\ c_bounce c = 0 /\ admissible u c /\
  c_nMass c = / eff a b (c_r1 c) (c_r2 c) n /\ c_tMass c = / eff a b (c_r1 c) (c_r2 c) (quarter n) /\
  let '(a', b', _) := contact_step n (mkV 0 0) u a b c in b_kinetic_energy a + b_kinetic_energy b < b_kinetic_energy a' + b_kinetic_energy b'.
Proof.
  exists (mkV 0 1), 2, ground, (mkBody 1 1 1 1 (mkV 0 0) (mkV 0 0) (mkV 0 (1/2)) (mkV 0 0) 0 0 0 t_identity (mkV 0 0) 0 [] 0), (mkCon (mkV 0 0) (mkV 0 0) 1 1 0 (1/2) 1 0 0 0%Z).
  split; [unfold unit, norm2; cbn [vx vy]; lra|]. split; [split; [split; reflexivity|split; reflexivity]|]. split; [unfold finite_mass; cbn [b_m b_minv b_i b_iinv]; splits; lra|].
  split; [lra|]. split; [reflexivity|]. split; [unfold admissible; unR; cbn [c_jnAcc c_jBias c_jtAcc]; splits; apply Rleb_true; lra|].
  split; [unfold eff, norm2, crossR, ground; cbn [vx vy c_r1 c_r2 c_nMass b_minv b_iinv]; match goal with |- _ = / ?d => replace d with 1 by ring end; lra|]. split; [unfold eff, quarter, norm2, crossR, ground; cbn [vx vy c_r1 c_r2 c_tMass b_minv b_iinv]; match goal with |- _ = / ?d => replace d with 1 by ring end; lra|].
  unfold contact_step. cbn [c_nMass c_r1 c_r2 c_bias c_jBias c_bounce c_jnAcc c_jtAcc c_tMass c_hash]. rewrite closing_eq. cbv zeta.
  set (b := mkBody _ _ _ _ _ _ _ _ _ _ _ _ _ _ _ _).
  match goal with |- context [apply_bias_impulses ground b ?r1 ?r2 ?J] => pose proof (E_bias ground b r1 r2 J) as HE;
    pose proof (bias_keeps_closing ground b r1 r2 J r1 r2) as HK; pose proof (bias_conserves ground b r1 r2 J) as CB0; destruct (apply_bias_impulses ground b r1 r2 J) as [a1 b1] end. destruct CB0 as [CB _].
  assert (Sg : sound ground) by (right; split; [split; reflexivity|split; reflexivity]).
  assert (Sb : sound b) by (left; unfold finite_mass, b; cbn [b_m b_minv b_i b_iinv]; splits; lra).
  destruct (sound_conserves _ _ _ _ CB Sg Sb) as [Sa1 Sb1]. destruct CB as (F1 & F2 & _).
  match goal with |- context [apply_impulses a1 b1 ?r1 ?r2 ?J] => pose proof (E_push a1 b1 r1 r2 J Sa1 Sb1) as HP; destruct (apply_impulses a1 b1 r1 r2 J) as [a2 b2] end.
  rewrite !energy_E, HP, HK, (eff_frame ground b a1 b1) by auto. destruct HE as [-> ->]. rewrite rotate_n.
  assert (VX : closing ground b (mkV 0 0) (mkV 0 0) = mkV 0 (1/2)) by (unfold closing, point_velocity, vminus, ground, b; cbn [b_v b_w vx vy]; apply vec_eq; cbn [vx vy]; ring). rewrite VX.
  match goal with |- context [nmul 2 (nmax ?x nzero)] => replace (nmax x nzero) with 0 by (symmetry; unfold vdot, vadd; unR; cbn [vx vy]; apply Rmax_right; lra) end.
  match goal with |- context [nclamp ?x ?y ?z] => replace (nclamp x y z) with 0 by (symmetry; unR; rewrite Rmult_0_r, Ropp_0, clampR by lra; unfold Rmin, Rmax; repeat destruct (Rle_dec _ _); lra) end.
  unfold eff, inner, norm2, crossR, ground, b. unR. cbn [vx vy b_minv b_iinv]. lra.
Qed.
Print Assumptions C123_actions. Print Assumptions C123_contact. Print Assumptions C123_solver. Print Assumptions C123_steps. Print Assumptions C123_bounce. Print Assumptions C123_nonvacuous.
Print Assumptions C124_groove_refuted. Print Assumptions C125_elastic_refuted. Print Assumptions C125_friction_refuted.
