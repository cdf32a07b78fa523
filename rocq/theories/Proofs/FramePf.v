(** The solver in another frame of reference. *)
From Coq Require Import Reals ZArith Bool List Lra Lia.
From Verif Require Import Num Spec SpecBody SpecSolver SpecStep SpecFrame.
From Verif.Model Require Import Vector BB Transform Body Solver Step.
From Verif.Proofs Require Import RTac Geom BodyPf SolverPf StepPf.
Import ListNotations.
Local Open Scope R_scope.

Section Frame.
Variable g : frame.
Notation c := (cos (fr_angle g)).
Notation s := (sin (fr_angle g)).
Notation Tn := (seen_dir g).
Notation Sb := (seen_body g).

Lemma cs1 : c * c + s * s = 1.
Proof. pose proof (sin2_cos2 (fr_angle g)) as H. unfold Rsqr in H. lra. Qed.
Ltac open := unfold seen_dir, turn, vadd, vsub, vneg, vmult, vdot, vcross, vperp, vrotate; unR; cbn [vx vy].
Lemma Tn_add u v : vadd (Tn u) (Tn v) = Tn (vadd u v).
Proof. apply vec_eq; open; ring. Qed.
Lemma Tn_sub u v : vsub (Tn u) (Tn v) = Tn (vsub u v).
Proof. apply vec_eq; open; ring. Qed.
Lemma Tn_neg u : vneg (Tn u) = Tn (vneg u).
Proof. apply vec_eq; open; ring. Qed.
Lemma Tn_mult u k : vmult (Tn u) k = Tn (vmult u k).
Proof. apply vec_eq; open; ring. Qed.
Lemma Tn_perp u : vperp (Tn u) = Tn (vperp u).
Proof. apply vec_eq; open; ring. Qed.
Lemma Tn_rotate u v : vrotate (Tn u) v = Tn (vrotate u v).
Proof. apply vec_eq; open; ring. Qed.
Lemma Tn_zero : Tn (mkV 0 0) = mkV 0 0.
Proof. apply vec_eq; open; ring. Qed.
Lemma Tn_vzero : Tn vzero = vzero.
Proof. exact Tn_zero. Qed.
Lemma Tn_dot u v : vdot (Tn u) (Tn v) = vdot u v.
Proof.
  transitivity ((c * c + s * s) * vdot u v); [open; ring|rewrite cs1; unR; ring].
Qed.
Lemma Tn_cross u v : vcross (Tn u) (Tn v) = vcross u v.
Proof. transitivity ((c * c + s * s) * vcross u v); [open; ring|rewrite cs1; unR; ring]. Qed.
Lemma Tn_len u : vlen (Tn u) = vlen u.
Proof. unfold vlen. now rewrite Tn_dot. Qed.
Lemma Tn_normalize u : vnormalize (Tn u) = Tn (vnormalize u).
Proof. unfold vnormalize. now rewrite Tn_len, Tn_mult. Qed.
Lemma Tn_clamp u l : vclamp (Tn u) l = Tn (vclamp u l).
Proof. unfold vclamp. rewrite Tn_dot. destruct (_ <? _)%num; [|reflexivity]. now rewrite Tn_normalize, Tn_mult. Qed.
Lemma Tn_project u v : vproject (Tn u) (Tn v) = Tn (vproject u v).
Proof. unfold vproject. now rewrite !Tn_dot, Tn_mult. Qed.
Lemma Tn_vequal u : vequal (Tn u) vzero = vequal u vzero.
Proof.
  assert (Z : forall v : RV, vequal v vzero = true <-> v = mkV 0 0).
  { intros [x y]. unfold vequal, vzero. unR. cbn [vx vy]. rewrite andb_true_iff, !Reqb_true. split; [intros [-> ->]; reflexivity|now injection 1]. }
  destruct (vequal u vzero) eqn:E.
  - apply Z. apply Z in E. subst u. apply Tn_zero.
  - apply not_true_iff_false in E. apply not_true_iff_false. intros X. apply E, Z. apply Z in X.
    pose proof (Tn_dot u u) as D. rewrite X in D. revert D. unfold vdot. unR. cbn [vx vy]. intros D.
    destruct u as [x y]. cbn [vx vy] in *. assert (x = 0 /\ y = 0) as [-> ->]; [|reflexivity].
    pose proof (Rle_0_sqr x). pose proof (Rle_0_sqr y). unfold Rsqr in *. split; apply Rsqr_0_uniq; unfold Rsqr; lra.
Qed.
Lemma Tn_mat m v : mat_transform (seen_matrix g m) (Tn v) = Tn (mat_transform m v).
Proof.
  assert (V : forall v, turn (- fr_angle g) v = mkV (c * vx v + s * vy v) (- s * vx v + c * vy v)).
  { intros w. unfold turn. rewrite cos_neg, sin_neg. apply vec_eq; cbn [vx vy]; ring. }
  pose proof cs1 as E. unfold seen_matrix. rewrite !V.
  assert (U : v = turn (- fr_angle g) (Tn v)).
  { rewrite V. destruct v as [x y]. apply vec_eq; open; [transitivity ((c * c + s * s) * x)|transitivity ((c * c + s * s) * y)]; try ring; rewrite E; ring. }
  rewrite U at 2. rewrite V. set (w := Tn v). clearbody w.
  apply vec_eq; unfold mat_transform; cbn [m_a m_b m_c m_d vx vy]; open; ring.
Qed.
Lemma St_vect t v : t_vect (seen_transform g t) v = Tn (t_vect t v).
Proof. apply vec_eq; unfold t_vect, seen_transform; cbn [ta tb tc td]; open; ring. Qed.
Lemma St_point t v : t_point (seen_transform g t) v = seen_point g (t_point t v).
Proof. apply vec_eq; unfold t_point, seen_transform, seen_point, vplus; cbn [ta tb tc td ttx tty]; open; ring. Qed.
Lemma S_delta p q : vsub (seen_point g p) (seen_point g q) = Tn (vsub p q).
Proof. apply vec_eq; unfold seen_point, vplus; open; ring. Qed.
Lemma S_shift p u : vadd (seen_point g p) (Tn u) = seen_point g (vadd p u).
Proof. apply vec_eq; unfold seen_point, vplus; open; ring. Qed.

Lemma P_p b : b_p (Sb b) = seen_point g (b_p b). Proof. reflexivity. Qed.
Lemma P_tr b : b_tr (Sb b) = seen_transform g (b_tr b). Proof. reflexivity. Qed.
Lemma P_cog b : b_cog (Sb b) = b_cog b. Proof. reflexivity. Qed.
Lemma S_relative a b r1 r2 : relative_velocity (Sb a) (Sb b) (Tn r1) (Tn r2) = Tn (relative_velocity a b r1 r2).
Proof. unfold relative_velocity. rewrite !Tn_perp, !Tn_mult. cbn [seen_body b_w b_v]. apply vec_eq; unfold seen_velocity, vplus; open; ring. Qed.
Lemma S_normal a b r1 r2 n : normal_relative_velocity (Sb a) (Sb b) (Tn r1) (Tn r2) (Tn n) = normal_relative_velocity a b r1 r2 n.
Proof. unfold normal_relative_velocity. now rewrite S_relative, Tn_dot. Qed.
Lemma S_kscalar a b r1 r2 n : k_scalar (Sb a) (Sb b) (Tn r1) (Tn r2) (Tn n) = k_scalar a b r1 r2 n.
Proof. unfold k_scalar, k_scalar_body. now rewrite !Tn_cross. Qed.
Definition two (x : Body R * Body R) : Body R * Body R := (Sb (fst x), Sb (snd x)).
Lemma S_impulses a b r1 r2 j : apply_impulses (Sb a) (Sb b) (Tn r1) (Tn r2) (Tn j) = two (apply_impulses a b r1 r2 j).
Proof.
  unfold two, apply_impulses. cbn [fst snd].
  assert (X : forall u v, (vx (Tn u) * vy (Tn v) - vy (Tn u) * vx (Tn v))%num = (vx u * vy v - vy u * vx v)%num) by (intros; apply Tn_cross).
  assert (Y : forall u, mkV (- vx (Tn u))%num (- vy (Tn u))%num = Tn (mkV (- vx u)%num (- vy u)%num)) by (intros; apply Tn_neg).
  rewrite X, Y, X. unfold upd_vel, seen_body. cbn [b_m b_minv b_i b_iinv b_cog b_p b_v b_f b_a b_w b_t b_tr b_vbias b_wbias b_shapes b_idle].
  f_equal; f_equal; apply vec_eq; unfold seen_velocity, vplus; open; ring.
Qed.
Lemma S_bias_impulses a b r1 r2 j : apply_bias_impulses (Sb a) (Sb b) (Tn r1) (Tn r2) (Tn j) = two (apply_bias_impulses a b r1 r2 j).
Proof.
  unfold two, apply_bias_impulses. cbn [fst snd].
  assert (X : forall u v, (vx (Tn u) * vy (Tn v) - vy (Tn u) * vx (Tn v))%num = (vx u * vy v - vy u * vx v)%num) by (intros; apply Tn_cross).
  assert (Y : forall u, mkV (- vx (Tn u))%num (- vy (Tn u))%num = Tn (mkV (- vx u)%num (- vy u)%num)) by (intros; apply Tn_neg).
  rewrite X, Y, X. unfold upd_bias, seen_body. cbn [b_m b_minv b_i b_iinv b_cog b_p b_v b_f b_a b_w b_t b_tr b_vbias b_wbias b_shapes b_idle].
  f_equal; f_equal; apply vec_eq; open; ring.
Qed.
Lemma S_ktensor a b r1 r2 : k_tensor (Sb a) (Sb b) (Tn r1) (Tn r2) = seen_matrix g (k_tensor a b r1 r2).
Proof.
  pose proof cs1 as E. unfold k_tensor. cbv zeta. cbn [seen_body b_minv b_iinv].
  set (m := (b_minv a + b_minv b)%num). set (I := b_iinv a). set (J := b_iinv b). destruct r1 as [x1 y1]. destruct r2 as [x2 y2]. cbn [vx vy].
  clearbody m I J.
  set (X1 := vx (Tn (mkV x1 y1))). set (Y1 := vy (Tn (mkV x1 y1))). set (X2 := vx (Tn (mkV x2 y2))). set (Y2 := vy (Tn (mkV x2 y2))).
  assert (A1 : X1 = c * x1 - s * y1) by reflexivity. assert (B1 : Y1 = s * x1 + c * y1) by reflexivity.
  assert (A2 : X2 = c * x2 - s * y2) by reflexivity. assert (B2 : Y2 = s * x2 + c * y2) by reflexivity.
  clearbody X1 Y1 X2 Y2. unfold seen_matrix, turn. rewrite cos_neg, sin_neg. unfold mat_transform, seen_dir, turn. cbn [m_a m_b m_c m_d vx vy]. unR.
  assert (Dt : (m + Y1 * Y1 * I + Y2 * Y2 * J) * (m + X1 * X1 * I + X2 * X2 * J) - (0 + - X1 * Y1 * I + - X2 * Y2 * J) * (0 + - X1 * Y1 * I + - X2 * Y2 * J) =
               (m + y1 * y1 * I + y2 * y2 * J) * (m + x1 * x1 * I + x2 * x2 * J) - (0 + - x1 * y1 * I + - x2 * y2 * J) * (0 + - x1 * y1 * I + - x2 * y2 * J)).
  { assert (P1 : X1 * X1 + Y1 * Y1 = x1 * x1 + y1 * y1) by (rewrite A1, B1; transitivity ((c * c + s * s) * (x1 * x1 + y1 * y1)); [ring|rewrite E; ring]).
    assert (P2 : X2 * X2 + Y2 * Y2 = x2 * x2 + y2 * y2) by (rewrite A2, B2; transitivity ((c * c + s * s) * (x2 * x2 + y2 * y2)); [ring|rewrite E; ring]).
    assert (P3 : X1 * Y2 - Y1 * X2 = x1 * y2 - y1 * x2) by (rewrite A1, B1, A2, B2; transitivity ((c * c + s * s) * (x1 * y2 - y1 * x2)); [ring|rewrite E; ring]).
    transitivity (m * m + m * I * (X1 * X1 + Y1 * Y1) + m * J * (X2 * X2 + Y2 * Y2) + I * J * ((X1 * Y2 - Y1 * X2) * (X1 * Y2 - Y1 * X2))); [field|].
    rewrite P1, P2, P3. field. }
  rewrite Dt. clear Dt.
  match goal with |- context [1 / ?d] => set (q := 1 / d) end. clearbody q.
  assert (M : m = m * (c * c + s * s)) by (rewrite E; ring).
  f_equal; subst X1 X2 Y1 Y2.
  - rewrite M at 1. ring.
  - ring.
  - ring.
  - rewrite M at 1. ring.
Qed.

(** *** contacts *)
Lemma S_contact n surf u a b k :
  contact_step (Tn n) (Tn surf) u (Sb a) (Sb b) (seen_contact g k) =
  let '(a', b', k') := contact_step n surf u a b k in (Sb a', Sb b', seen_contact g k').
Proof.
  unfold contact_step. cbv zeta. cbn [seen_contact c_r1 c_r2 c_nMass c_tMass c_bounce c_jnAcc c_jtAcc c_jBias c_bias c_hash].
  rewrite S_relative, !Tn_perp, !Tn_mult, Tn_rotate. cbn [seen_body b_vbias b_wbias]. rewrite !Tn_add, !Tn_sub, !Tn_dot.
  rewrite S_bias_impulses. match goal with |- context [two (apply_bias_impulses ?a ?b ?r ?q ?j)] => destruct (apply_bias_impulses a b r q j) as [a1 b1] end.
  unfold two at 1. cbn [fst snd]. rewrite S_impulses.
  match goal with |- context [two (apply_impulses ?a ?b ?r ?q ?j)] => destruct (apply_impulses a b r q j) as [a2 b2] end. reflexivity.
Qed.
Lemma S_contacts n surf u l : forall a b,
  contacts_step (Tn n) (Tn surf) u (Sb a) (Sb b) (map (seen_contact g) l) =
  let '(a', b', l') := contacts_step n surf u a b l in (Sb a', Sb b', map (seen_contact g) l').
Proof.
  induction l as [|k l IH]; intros a b; cbn [contacts_step map]; [reflexivity|]. rewrite S_contact.
  destruct (contact_step n surf u a b k) as [[a1 b1] k1]. rewrite IH. destruct (contacts_step n surf u a1 b1 l) as [[a2 b2] l2]. reflexivity.
Qed.
Lemma S_solve_arb x a b : arb_apply_impulse (seen_arbiter g x) (Sb a) (Sb b) = let '(x', a', b') := arb_apply_impulse x a b in (seen_arbiter g x', Sb a', Sb b').
Proof.
  unfold arb_apply_impulse. cbn [seen_arbiter ar_n ar_surf ar_u ar_contacts]. rewrite S_contacts.
  destruct (contacts_step _ _ _ a b _) as [[a1 b1] l1]. reflexivity.
Qed.
Lemma S_cached_arb q x a b : cached_arb q (seen_arbiter g x) (Sb a) (Sb b) = let '(x', a', b') := cached_arb q x a b in (seen_arbiter g x', Sb a', Sb b').
Proof.
  assert (L : forall n l a b, fold_left (fun '(a, b) con => let j := vrotate (Tn n) (mkV (c_jnAcc con) (c_jtAcc con)) in
             apply_impulses a b (c_r1 con) (c_r2 con) (vmult j q)) (map (seen_contact g) l) (Sb a, Sb b) =
           two (fold_left (fun '(a, b) con => let j := vrotate n (mkV (c_jnAcc con) (c_jtAcc con)) in
             apply_impulses a b (c_r1 con) (c_r2 con) (vmult j q)) l (a, b))).
  { intros n. induction l as [|k l IH]; intros a0 b0; cbn [fold_left map]; [reflexivity|]. cbn [seen_contact c_r1 c_r2 c_jnAcc c_jtAcc].
    cbv zeta. rewrite Tn_rotate, Tn_mult, S_impulses. destruct (apply_impulses a0 b0 _ _ _) as [a1 b1]. apply (IH a1 b1). }
  unfold cached_arb, arb_apply_cached. cbn [seen_arbiter ar_n ar_state ar_contacts].
  destruct (ar_state x); try reflexivity; rewrite L;
    match goal with |- context [two (fold_left ?f ?l ?z)] => destruct (fold_left f l z) as [a1 b1] end; reflexivity.
Qed.
Lemma S_prestep_arb se dt x a b : prestep_arb (seen_settings g se) dt (seen_arbiter g x) (Sb a) (Sb b) =
  let '(x', a', b') := prestep_arb se dt x a b in (seen_arbiter g x', Sb a', Sb b').
Proof.
  unfold prestep_arb, arb_prestep, arb_with, seen_arbiter. cbn [seen_settings se_slop se_bias ar_e ar_u ar_surf ar_n ar_contacts ar_swapped ar_state].
  f_equal. f_equal. f_equal. rewrite !map_map. apply map_ext. intros k.
  unfold con_prestep. cbn [seen_contact c_r1 c_r2 c_nMass c_tMass c_bounce c_jnAcc c_jtAcc c_jBias c_bias c_hash ar_n ar_e].
  rewrite Tn_perp, !S_kscalar, S_normal, Tn_sub. cbn [seen_body b_p]. rewrite S_delta, Tn_add, Tn_dot. reflexivity.
Qed.

(** *** constraints *)
Definition three (x : @Joint R * Body R * Body R) : @Joint R * Body R * Body R := let '(j, a, b) := x in (seen_joint g j, Sb a, Sb b).
Ltac imp := rewrite S_impulses; match goal with |- context [two (apply_impulses ?a ?b ?r ?q ?j)] => destruct (apply_impulses a b r q j) as [? ?] end; reflexivity.
Lemma S_cached j q a b : j_cached (seen_joint g j) q (Sb a) (Sb b) = two (j_cached j q a b).
Proof.
  destruct j; cbn [seen_joint j_cached pin_r1 pin_r2 pin_n pin_jnAcc piv_r1 piv_r2 piv_jAcc sl_r1 sl_r2 sl_n sl_jnAcc gr_r1 gr_r2 gr_jAcc ge_jAcc ge_ratio_inv];
    try reflexivity; rewrite Tn_mult; apply S_impulses.
Qed.
Lemma S_apply p j dt a b : j_apply p (seen_joint g j) dt (Sb a) (Sb b) = three (j_apply p j dt a b).
Proof.
  destruct j as [j|j|j|j|j|j|j|j|j|j]; cbn [seen_joint j_apply].
  - unfold pin_apply. cbn [pin_A pin_B pin_dist pin_r1 pin_r2 pin_n pin_nMass pin_jnAcc pin_bias]. rewrite S_normal, Tn_mult. imp.
  - unfold pivot_apply. cbn [piv_A piv_B piv_r1 piv_r2 piv_k piv_jAcc piv_bias]. rewrite S_relative, Tn_sub, Tn_mat, Tn_add, Tn_clamp, Tn_sub. imp.
  - unfold slide_apply. cbn [sl_A sl_B sl_min sl_max sl_r1 sl_r2 sl_n sl_nMass sl_jnAcc sl_bias]. rewrite Tn_vequal. destruct (vequal (sl_n j) vzero); [reflexivity|].
    rewrite S_relative, Tn_dot, Tn_mult. imp.
  - assert (Gc : forall v, groove_constrain p (mkGroove (gr_n j) (gr_a j) (gr_b j) (gr_B j) (Tn (gr_tn j)) (gr_clamp j) (Tn (gr_r1 j)) (Tn (gr_r2 j)) (seen_matrix g (gr_k j)) (Tn (gr_jAcc j)) (Tn (gr_bias j))) (Tn v) dt = Tn (groove_constrain p j v dt)).
    { intros v. unfold groove_constrain. cbn [gr_tn gr_clamp]. rewrite Tn_cross, Tn_project. destruct (_ <? _)%num; apply Tn_clamp. }
    unfold groove_apply. cbn [gr_n gr_a gr_b gr_B gr_tn gr_clamp gr_r1 gr_r2 gr_k gr_jAcc gr_bias]. rewrite S_relative, Tn_sub, Tn_mat, Tn_add, Gc, Tn_sub. imp.
  - reflexivity.
  - unfold ratchet_apply. cbn [seen_body b_w]. destruct (ra_bias j =? nzero)%num; reflexivity.
  - unfold rotary_apply. cbn [seen_body b_w]. destruct (ro_bias j =? nzero)%num; reflexivity.
  - reflexivity.
  - unfold spring_apply. cbn [sp_A sp_B sp_rest sp_stiff sp_damp sp_force sp_target sp_vCoef sp_r1 sp_r2 sp_nMass sp_n sp_jAcc]. rewrite S_normal, Tn_mult. imp.
  - reflexivity.
Qed.
Definition grooveless (j : @Joint R) : Prop := match j with JGroove _ => False | _ => True end.
Lemma S_gap a b r1 r2 : vsub (vadd (seen_point g (b_p b)) (Tn r2)) (vadd (seen_point g (b_p a)) (Tn r1)) = Tn (vsub (vadd (b_p b) r2) (vadd (b_p a) r1)).
Proof. now rewrite !S_shift, S_delta. Qed.
Lemma S_prestep p j dt a b : about_origin g \/ grooveless j -> j_prestep p (seen_joint g j) dt (Sb a) (Sb b) = three (j_prestep p j dt a b).
Proof.
  intros Ok. destruct j as [j|j|j|j|j|j|j|j|j|j]; cbn [seen_joint j_prestep three].
  - unfold pin_prestep. cbn [pin_A pin_B pin_dist pin_r1 pin_r2 pin_n pin_nMass pin_jnAcc pin_bias]. cbv zeta. rewrite !P_tr, !P_cog, !P_p, !St_vect.
    assert (D : forall u v, vadd (seen_point g (b_p b)) (vsub (Tn u) (vadd (seen_point g (b_p a)) (Tn v))) = Tn (vadd (b_p b) (vsub u (vadd (b_p a) v)))).
    { intros u v. apply vec_eq; unfold seen_point, vplus; open; ring. }
    rewrite D, Tn_len, !Tn_mult.
    match goal with |- context [negb ?x] => destruct (negb x) end; rewrite S_kscalar; reflexivity.
  - unfold pivot_prestep. cbn [piv_A piv_B piv_r1 piv_r2 piv_k piv_jAcc piv_bias]. cbv zeta. rewrite !P_tr, !P_cog, !P_p, !St_vect, S_gap, Tn_mult, Tn_clamp, S_ktensor. reflexivity.
  - unfold slide_prestep. cbn [sl_A sl_B sl_min sl_max sl_r1 sl_r2 sl_n sl_nMass sl_jnAcc sl_bias]. cbv zeta. rewrite !P_tr, !P_cog, !P_p, !St_vect, S_gap, Tn_len, Tn_normalize, Tn_neg.
    destruct (_ <? _)%num; [|destruct (_ <? _)%num]; [rewrite S_kscalar; reflexivity|rewrite S_kscalar; reflexivity|].
    cbn [seen_joint sl_A sl_B sl_min sl_max sl_r1 sl_r2 sl_n sl_nMass sl_jnAcc sl_bias]. rewrite <- (S_kscalar a b _ _ vzero), Tn_vzero. reflexivity.
  - destruct Ok as [[D0 U0]|[]].
    assert (Sp : forall p, seen_point g p = Tn p) by (intros q; unfold seen_point; rewrite D0; apply vec_eq; unfold vplus; cbn [vx vy]; unfold seen_dir; ring).
    unfold groove_prestep. cbn [gr_n gr_a gr_b gr_B gr_tn gr_clamp gr_r1 gr_r2 gr_k gr_jAcc gr_bias]. cbv zeta.
    rewrite !P_tr, !P_cog, !P_p, !St_vect, !St_point, !Sp, !Tn_add, !Tn_cross, !Tn_dot, !Tn_sub.
    destruct (_ <=? _)%num; [|destruct (_ <=? _)%num].
    + rewrite S_ktensor, Tn_add, Tn_sub, Tn_mult, Tn_clamp. reflexivity.
    + rewrite S_ktensor, Tn_add, Tn_sub, Tn_mult, Tn_clamp. reflexivity.
    + rewrite Tn_perp, !Tn_mult, !Tn_add, !Tn_sub, S_ktensor, !Tn_add, !Tn_sub, !Tn_mult, Tn_clamp. reflexivity.
  - unfold gear_prestep, three. cbn [seen_joint ge_phase ge_ratio ge_ratio_inv ge_iSum ge_bias ge_jAcc seen_body b_a b_iinv].
    replace ((b_a b + fr_angle g)%R * ge_ratio j - (b_a a + fr_angle g)%R - (ge_phase j + fr_angle g * (ge_ratio j - 1))%R)%num with (b_a b * ge_ratio j - b_a a - ge_phase j)%num by (unR; ring).
    reflexivity.
  - unfold ratchet_prestep. cbn [seen_body b_a b_iinv]. cbv zeta.
    replace ((b_a b + fr_angle g)%R - (b_a a + fr_angle g)%R)%num with (b_a b - b_a a)%num by (unR; ring). reflexivity.
  - unfold rotary_prestep. cbn [seen_body b_a b_iinv]. cbv zeta.
    replace ((b_a b + fr_angle g)%R - (b_a a + fr_angle g)%R)%num with (b_a b - b_a a)%num by (unR; ring). reflexivity.
  - reflexivity.
  - unfold spring_prestep. cbn [sp_A sp_B sp_rest sp_stiff sp_damp sp_force sp_target sp_vCoef sp_r1 sp_r2 sp_nMass sp_n sp_jAcc]. cbv zeta. rewrite !P_tr, !P_cog, !P_p, !St_vect, S_gap, Tn_len, !Tn_mult.
    match goal with |- context [negb ?x] => destruct (negb x) end; rewrite S_kscalar, Tn_mult; imp.
  - unfold rspring_prestep. cbv zeta. cbn [seen_body b_a b_iinv].
    replace ((b_a a + fr_angle g)%R - (b_a b + fr_angle g)%R)%num with (b_a a - b_a b)%num by (unR; ring). reflexivity.
Qed.
Lemma S_velocity b gr d dt : fr_speed g = mkV 0 0 \/ d = 1 -> b_update_velocity (Sb b) (Tn gr) d dt = Sb (b_update_velocity b gr d dt).
Proof.
  intros U. unfold b_update_velocity. change (is_kinematic (Sb b)) with (is_kinematic b). destruct (is_kinematic b); [reflexivity|].
  unfold upd_force, upd_vel, seen_body. cbn [b_m b_minv b_i b_iinv b_cog b_p b_v b_f b_a b_w b_t b_tr b_vbias b_wbias b_shapes b_idle].
  rewrite Tn_vzero. f_equal. rewrite !Tn_mult, Tn_add, Tn_mult.
  destruct U as [U| ->].
  - unfold seen_velocity. rewrite U. apply vec_eq; unfold vplus; open; ring.
  - apply vec_eq; unfold seen_velocity, vplus; open; ring.
Qed.
Lemma S_position b dt : b_update_position (Sb b) dt = seen_body (later g dt) (b_update_position b dt).
Proof.
  unfold b_update_position, b_set_transform, upd_bias, upd_tr, upd_a, upd_p, seen_body, later.
  cbn [b_m b_minv b_i b_iinv b_cog b_p b_v b_f b_a b_w b_t b_tr b_vbias b_wbias b_shapes b_idle fr_angle fr_shift fr_speed].
  set (a' := (b_a b + (b_w b + b_wbias b) * dt)%num).
  replace ((b_a b + fr_angle g)%R + (b_w b + b_wbias b) * dt)%num with (a' + fr_angle g)%R by (unfold a'; unR; ring).
  change (ncos (a' + fr_angle g)%R) with (cos (a' + fr_angle g)). change (nsin (a' + fr_angle g)%R) with (sin (a' + fr_angle g)).
  change (ncos a') with (cos a'). change (nsin a') with (sin a'). clearbody a'. rewrite cos_plus, sin_plus.
  set (C := cos a'). set (S := sin a'). clearbody C S.
  f_equal.
  - apply vec_eq; unfold seen_velocity, seen_point, vplus, vscale; cbn [fr_angle fr_shift fr_speed]; open; ring.
  - unfold seen_transform, t_transpose, seen_point, seen_velocity, seen_dir, turn, vplus, vscale. cbn [ta tb tc td ttx tty vx vy fr_angle fr_shift fr_speed].
    f_equal; unfold vadd, vmult; cbn [vx vy]; unR; ring.
  - unfold vzero. apply vec_eq; unfold seen_dir, turn; cbn [fr_angle]; open; ring.
Qed.
End Frame.

(** *** loops *)
Section Loops.
Variable g : frame.
Notation Sb := (seen_body g).
Variable P : nat -> Prop.
Definition agree (w w' : @store R) : Prop := forall i, P i -> w' i = Sb (w i).
Lemma agree_put w w' i b : agree w w' -> agree (put w i b) (put w' i (Sb b)).
Proof. intros A k Hk. unfold put. destruct (Nat.eqb k i); [reflexivity|now apply A]. Qed.
Lemma link_frame {X} (sx : X -> X) (okx : X -> Prop) (f f' : X -> Body R -> Body R -> X * Body R * Body R) :
  (forall x a b, okx x -> f' (sx x) (Sb a) (Sb b) = let '(x', a', b') := f x a b in (sx x', Sb a', Sb b')) ->
  (forall x a b, okx x -> okx (fst (fst (f x a b)))) ->
  forall l w w', (forall i k x, In (i, k, x) l -> P i /\ P k /\ okx x) -> agree w w' ->
  let r := each_link f l w in let r' := each_link f' (map (fun '(i, k, x) => (i, k, sx x)) l) w' in
  agree (fst r) (fst r') /\ snd r' = map (fun '(i, k, x) => (i, k, sx x)) (snd r) /\ (forall i k x, In (i, k, x) (snd r) -> P i /\ P k /\ okx x).
Proof.
  intros C K. induction l as [|[[i k] x] l IH]; intros w w' Hl A; cbn [map each_link]; [now split|].
  destruct (Hl i k x (or_introl eq_refl)) as (Pi & Pk & Ox). rewrite (A i Pi), (A k Pk), (C x (w i) (w k) Ox). pose proof (K x (w i) (w k) Ox) as Kx.
  destruct (f x (w i) (w k)) as [[x1 a1] b1]. cbn [fst] in Kx.
  specialize (IH (put (put w i a1) k b1) (put (put w' i (Sb a1)) k (Sb b1)) (fun i0 k0 x0 H => Hl i0 k0 x0 (or_intror H)) (agree_put _ _ k b1 (agree_put _ _ i a1 A))).
  cbv zeta in IH. destruct (each_link f l _) as [w1 l1]. destruct (each_link f' _ _) as [w2 l2]. cbn [fst snd] in *. destruct IH as (I1 & I2 & I3).
  split; [exact I1|]. split; [cbn [map]; now rewrite I2|]. intros i0 k0 x0 [E|E]; [injection E as <- <- <-; auto|now apply I3].
Qed.
Lemma body_frame (f f' : Body R -> Body R) l : (forall b, f' (Sb b) = Sb (f b)) -> forall w w', agree w w' -> agree (each_body f l w) (each_body f' l w').
Proof.
  intros C. unfold each_body. induction l as [|h l IH]; intros w w' A; cbn [fold_left]; [exact A|]. apply IH.
  intros k Hk. unfold put. destruct (Nat.eqb_spec k h) as [->|N]; [rewrite (A h Hk); apply C|now apply A].
Qed.
(** constraints with their parameters *)
Definition seenC (x : @Params R * @Joint R) : @Params R * @Joint R := (fst x, seen_joint g (snd x)).
Definition okC (x : @Params R * @Joint R) : Prop := about_origin g \/ grooveless (snd x).
Lemma cons_map l : seen_cons g l = map (fun '(i, k, x) => (i, k, seenC x)) l.
Proof. unfold seen_cons. apply map_ext. now intros [[i k] [p j]]. Qed.
Lemma grooveless_apply p j dt a b : grooveless j -> grooveless (fst (fst (j_apply p j dt a b))).
Proof.
  destruct j as [j|j|j|j|j|j|j|j|j|j]; cbn [j_apply]; intros G; try contradiction;
    repeat match goal with |- context [match ?e with pair _ _ => _ end] => destruct e as [? ?] end; exact Logic.I.
Qed.
Lemma grooveless_prestep p j dt a b : grooveless j -> grooveless (fst (fst (j_prestep p j dt a b))).
Proof.
  destruct j as [j|j|j|j|j|j|j|j|j|j]; cbn [j_prestep]; intros G; try contradiction; try exact Logic.I;
    repeat match goal with |- context [match ?e with pair _ _ => _ end] => destruct e as [? ?] end; exact Logic.I.
Qed.
Lemma C_solve dt x a b : okC x -> solve_con dt (seenC x) (Sb a) (Sb b) = let '(x', a', b') := solve_con dt x a b in (seenC x', Sb a', Sb b').
Proof. destruct x as [p j]. intros _. unfold solve_con, seenC. cbn [fst snd]. rewrite S_apply. unfold three. destruct (j_apply p j dt a b) as [[? ?] ?]. reflexivity. Qed.
Lemma C_cached q x a b : okC x -> cached_con q (seenC x) (Sb a) (Sb b) = let '(x', a', b') := cached_con q x a b in (seenC x', Sb a', Sb b').
Proof. destruct x as [p j]. intros _. unfold cached_con, seenC. cbn [fst snd]. rewrite S_cached. unfold two. destruct (j_cached j q a b) as [? ?]. reflexivity. Qed.
Lemma C_prestep dt x a b : okC x -> prestep_con dt (seenC x) (Sb a) (Sb b) = let '(x', a', b') := prestep_con dt x a b in (seenC x', Sb a', Sb b').
Proof. destruct x as [p j]. intros O. unfold prestep_con, seenC. cbn [fst snd]. rewrite S_prestep by exact O. unfold three. destruct (j_prestep p j dt a b) as [[? ?] ?]. reflexivity. Qed.
Lemma ok_solve dt x a b : okC x -> okC (fst (fst (solve_con dt x a b))).
Proof. destruct x as [p j]. intros [O|O]; [now left|right]. unfold solve_con. pose proof (grooveless_apply p j dt a b O) as K. destruct (j_apply p j dt a b) as [[? ?] ?]. exact K. Qed.
Lemma ok_cached q x a b : okC x -> okC (fst (fst (cached_con q x a b))).
Proof. intros O. unfold cached_con. destruct (j_cached (snd x) q a b) as [? ?]. exact O. Qed.
Lemma ok_prestep dt x a b : okC x -> okC (fst (fst (prestep_con dt x a b))).
Proof. destruct x as [p j]. intros [O|O]; [now left|right]. unfold prestep_con. pose proof (grooveless_prestep p j dt a b O) as K. destruct (j_prestep p j dt a b) as [[? ?] ?]. exact K. Qed.
Definition inP {X} (okx : X -> Prop) (l : list (link X)) : Prop := forall i k x, In (i, k, x) l -> P i /\ P k /\ okx x.
Lemma iterate_frame dt n : forall w w' arbs js, agree w w' -> inP (fun _ => True) arbs -> inP okC js ->
  let '(v, la, lj) := iterate dt n (w, arbs, js) in let '(v', la', lj') := iterate dt n (w', seen_arbs g arbs, seen_cons g js) in
  agree v v' /\ la' = seen_arbs g la /\ lj' = seen_cons g lj.
Proof.
  induction n as [|n IH]; intros w w' arbs js A Ia Ij; cbn [iterate]; [now repeat split|].
  pose proof (link_frame (seen_arbiter g) (fun _ => True) arb_apply_impulse arb_apply_impulse (fun x a b _ => S_solve_arb g x a b) (fun _ _ _ _ => Logic.I) arbs w w' Ia A) as L.
  cbv zeta in L. fold (seen_arbs g arbs) in L. destruct (each_link arb_apply_impulse arbs w) as [w1 a1]. destruct (each_link arb_apply_impulse (seen_arbs g arbs) w') as [w1' a1'].
  cbn [fst snd] in L. destruct L as (A1 & -> & Ia1). fold (seen_arbs g a1).
  pose proof (link_frame seenC okC (solve_con dt) (solve_con dt) (C_solve dt) (ok_solve dt) js w1 w1' Ij A1) as L.
  cbv zeta in L. rewrite <- cons_map in L. destruct (each_link (solve_con dt) js w1) as [w2 j2]. destruct (each_link (solve_con dt) (seen_cons g js) w1') as [w2' j2'].
  cbn [fst snd] in L. destruct L as (A2 & -> & Ij2). rewrite <- cons_map. now apply IH.
Qed.
End Loops.

(** *** the step *)
(** [P]: the bodies watched; either the frame does not move, or nothing is damped and every watched body is integrated *)
Definition steady (g : frame) (P : nat -> Prop) (se : Settings R) (dyn : list nat) : Prop :=
  fr_speed g = mkV 0 0 \/ (se_damping se = 1 /\ NoDup dyn /\ forall i, P i -> In i dyn).
Lemma later_zero g dt : fr_speed g = mkV 0 0 -> later g dt = g.
Proof. destruct g as [th D U]. cbn. intros ->. unfold later. cbn. f_equal. apply vec_eq; unfold vplus, vscale; cbn [vx vy]; ring. Qed.
Definition seenS (g : frame) (P : nat -> Prop) (sc sc' : Scene R) : Prop :=
  agree g P (sc_body sc) (sc_body sc') /\ sc_dyn sc' = sc_dyn sc /\ sc_dt sc' = sc_dt sc.
Lemma step_frame g P se sc sc' e : ev_dt e <> 0 -> seenS g P sc sc' -> steady g P se (sc_dyn sc) -> inP P (fun _ => True) (ev_arbs e) -> inP P (okC g) (ev_cons e) ->
  let t := step se sc e in let t' := step (seen_settings g se) sc' (seen_event g e) in
  seenS (later g (ev_dt e)) P t t' /\ sc_arbs t' = seen_arbs g (sc_arbs t) /\ sc_cons t' = seen_cons g (sc_cons t).
Proof.
  intros N (A & Ed & Et) St Ia Ij. set (dt := ev_dt e) in *. set (h := later g dt).
  unfold step. cbn [seen_event ev_dt ev_dyn ev_arbs ev_cons]. fold dt.
  assert (Z : (dt =? nzero)%num = false) by (apply Reqb_false; unR; replace (IZR 0 / 1)%R with 0 by field; exact N).
  rewrite Z, Ed, Et. cbv zeta.
  assert (A0 : agree h P (each_body (fun b => b_update_position b dt) (sc_dyn sc) (sc_body sc)) (each_body (fun b => b_update_position b dt) (sc_dyn sc) (sc_body sc'))).
  { destruct St as [U|(_ & ND & In0)].
    - unfold h. rewrite later_zero by exact U. apply body_frame; [|exact A]. intros b. rewrite S_position. now rewrite later_zero.
    - intros i Hi. rewrite !each_body_in by auto. rewrite (A i Hi). apply S_position. }
  assert (St' : fr_speed h = mkV 0 0 \/ npow (se_damping se) dt = 1).
  { destruct St as [U|(D & _)]; [now left|right]. rewrite D. change (Rpower 1 dt = 1). unfold Rpower. now rewrite ln_1, Rmult_0_r, exp_0. }
  assert (Ij' : inP P (okC h) (ev_cons e)).
  { intros i k x Hx. destruct (Ij i k x Hx) as (H1 & H2 & H3). split; [exact H1|]. split; [exact H2|]. destruct H3 as [O|O]; [left|now right].
    destruct O as [O1 O2]. unfold h. rewrite later_zero by exact O2. now split. }
  change (seen_settings g se) with (seen_settings h se). change (seen_arbs g) with (seen_arbs h). change (seen_cons g) with (seen_cons h).
  clearbody h. clear A St Ij Ed Et.
  set (w0 := each_body _ _ (sc_body sc)) in *. set (w0' := each_body _ _ (sc_body sc')) in *. clearbody w0 w0'.
  pose proof (link_frame h P (seen_arbiter h) (fun _ => True) (prestep_arb se dt) (prestep_arb (seen_settings h se) dt) (fun x a b _ => S_prestep_arb h se dt x a b) (fun _ _ _ _ => Logic.I) (ev_arbs e) w0 w0' Ia A0) as L.
  cbv zeta in L. fold (seen_arbs h (ev_arbs e)) in L. destruct (each_link (prestep_arb se dt) (ev_arbs e) w0) as [w1 a1]. destruct (each_link (prestep_arb _ dt) (seen_arbs h (ev_arbs e)) w0') as [w1' a1'].
  cbn [fst snd] in L. destruct L as (A1 & -> & Ia1). fold (seen_arbs h a1).
  pose proof (link_frame h P (seenC h) (okC h) (prestep_con dt) (prestep_con dt) (C_prestep h dt) (ok_prestep h dt) (ev_cons e) w1 w1' Ij' A1) as L.
  cbv zeta in L. rewrite <- !cons_map in L. destruct (each_link (prestep_con dt) (ev_cons e) w1) as [w2 j2]. destruct (each_link (prestep_con dt) (seen_cons h (ev_cons e)) w1') as [w2' j2'].
  cbn [fst snd] in L. destruct L as (A2 & -> & Ij2). rewrite ?cons_map. rewrite <- ?cons_map.
  assert (A3 := body_frame h P (fun b => b_update_velocity b (se_gravity se) (npow (se_damping se) dt) dt) (fun b => b_update_velocity b (se_gravity (seen_settings h se)) (npow (se_damping se) dt) dt) (ev_dyn e)
    (fun b => S_velocity h b (se_gravity se) (npow (se_damping se) dt) dt St') w2 w2' A2).
  change (se_damping (seen_settings h se)) with (se_damping se). change (se_iter (seen_settings h se)) with (se_iter se).
  set (w3 := each_body _ _ w2) in *. set (w3' := each_body _ _ w2') in *. clearbody w3 w3'.
  set (q := if (sc_dt sc =? nzero)%num then nzero else (dt / sc_dt sc)%num). clearbody q.
  pose proof (link_frame h P (seen_arbiter h) (fun _ => True) (cached_arb q) (cached_arb q) (fun x a b _ => S_cached_arb h q x a b) (fun _ _ _ _ => Logic.I) a1 w3 w3' Ia1 A3) as L.
  cbv zeta in L. fold (seen_arbs h a1) in L. destruct (each_link (cached_arb q) a1 w3) as [w4 a4]. destruct (each_link (cached_arb q) (seen_arbs h a1) w3') as [w4' a4'].
  cbn [fst snd] in L. destruct L as (A4 & _ & _).
  pose proof (link_frame h P (seenC h) (okC h) (cached_con q) (cached_con q) (C_cached h q) (ok_cached h q) j2 w4 w4' Ij2 A4) as L.
  cbv zeta in L. rewrite <- !cons_map in L. destruct (each_link (cached_con q) j2 w4) as [w5 j5]. destruct (each_link (cached_con q) (seen_cons h j2) w4') as [w5' j5'].
  cbn [fst snd] in L. destruct L as (A5 & _ & _).
  pose proof (iterate_frame h P dt (se_iter se) w5 w5' a1 j2 A5 Ia1 Ij2) as I.
  destruct (iterate dt (se_iter se) (w5, a1, j2)) as [[w6 a6] j6]. destruct (iterate dt (se_iter se) (w5', seen_arbs h a1, seen_cons h j2)) as [[w6' a6'] j6'].
  destruct I as (A6 & -> & ->). cbn [sc_body sc_dyn sc_dt sc_arbs sc_cons]. split; [split; [exact A6|now split]|now split].
Qed.
Lemma step_zero se sc e : ev_dt e = 0 -> step se sc e = sc.
Proof.
  intros E. unfold step. rewrite E. assert (Z : ((0 : R) =? nzero)%num = true) by (apply Reqb_true; unR; field). now rewrite Z.
Qed.
Lemma steps_frame P se evs : forall g sc sc', seenS g P sc sc' -> steady g P se (sc_dyn sc) ->
  Forall (fun e => steady g P se (ev_dyn e) /\ inP P (fun _ => True) (ev_arbs e) /\ inP P (okC g) (ev_cons e)) evs ->
  seenS (later g (fold_right Rplus 0 (map ev_dt evs))) P (steps se sc evs) (steps (seen_settings g se) sc' (map (seen_event g) evs)).
Proof.
  induction evs as [|e evs IH]; intros g sc sc' S St F; cbn [map fold_right]; unfold steps; cbn [fold_left].
  - replace (later g 0) with g; [exact S|]. destruct g as [th D U]. unfold later. cbn. f_equal. apply vec_eq; unfold vplus, vscale; cbn [vx vy]; ring.
  - inversion F as [|? ? (Se & Ia & Ij) Fr]; subst.
    assert (La : forall x y, later (later g x) y = later g (x + y)) by (intros x y; unfold later; cbn [fr_angle fr_shift fr_speed]; f_equal; apply vec_eq; unfold vplus, vscale; cbn [vx vy]; ring).
    rewrite <- La. destruct (Req_dec (ev_dt e) 0) as [Z|N].
    + rewrite !step_zero by exact Z. rewrite Z. replace (later g 0) with g by (destruct g as [th D U]; unfold later; cbn; f_equal; apply vec_eq; unfold vplus, vscale; cbn [vx vy]; ring).
      apply IH; assumption.
    + destruct (step_frame g P se sc sc' e N S St Ia Ij) as (S' & _ & _).
      specialize (IH (later g (ev_dt e)) (step se sc e) (step (seen_settings g se) sc' (seen_event g e)) S').
      change (steps (seen_settings (later g (ev_dt e)) se)) with (steps (seen_settings g se)) in IH.
      change (map (seen_event (later g (ev_dt e))) evs) with (map (seen_event g) evs) in IH. apply IH.
      * assert (Ed : sc_dyn (step se sc e) = ev_dyn e).
        { unfold step. assert (Z : (ev_dt e =? nzero)%num = false) by (apply Reqb_false; unR; replace (IZR 0 / 1)%R with 0 by field; exact N). rewrite Z.
          repeat match goal with |- context [match ?x with pair _ _ => _ end] => destruct x as [? ?] end. reflexivity. }
        rewrite Ed. exact Se.
      * rewrite Forall_forall in Fr |- *. intros e' He'. destruct (Fr e' He') as (F1 & F2 & F3). split; [exact F1|]. split; [exact F2|].
        intros i k x Hx. destruct (F3 i k x Hx) as (H1 & H2 & H3). split; [exact H1|]. split; [exact H2|]. destruct H3 as [O|O]; [left|now right].
        destruct O as [O1 O2]. rewrite later_zero by exact O2. now split.
Qed.
