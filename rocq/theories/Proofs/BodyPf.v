From Coq Require Import Reals ZArith Bool List Lra Lia Permutation.
From Verif Require Import Num Spec SpecBody.
From Verif.Model Require Import Vector BB Transform Body.
From Verif.Proofs Require Import RTac Geom.
Import ListNotations.
Local Open Scope R_scope.

Definition aligned (b : Body R) : Prop := b_tr b = b_tr (b_set_transform b (b_p b) (b_a b)).

Ltac ub := unfold b_set_transform in *; cbn [upd_mass upd_moment upd_cog upd_p upd_vel upd_force upd_a upd_tr upd_bias
  upd_shapes upd_idle t_transpose t_point t_vect vadd vsub vmult vzero
  b_m b_minv b_i b_iinv b_cog b_p b_v b_f b_a b_w b_t b_tr b_vbias b_wbias b_shapes b_idle ta tb tc td ttx tty vx vy] in *.

Lemma activate_eq (b : Body R) : exists x, b_activate b = upd_idle b x.
Proof. unfold b_activate. destruct (is_dynamic b); [eauto|]. exists (b_idle b). destruct b; reflexivity. Qed.
Ltac act b := let x := fresh "x" in destruct (activate_eq b) as [x ->].

Lemma aligned_tr b : aligned b -> ta (b_tr b) = cos (b_a b) /\ tb (b_tr b) = sin (b_a b) /\
  tc (b_tr b) = - sin (b_a b) /\ td (b_tr b) = cos (b_a b) /\
  ttx (b_tr b) = vx (b_p b) - (vx (b_cog b) * cos (b_a b) - vy (b_cog b) * sin (b_a b)) /\
  tty (b_tr b) = vy (b_p b) - (vx (b_cog b) * sin (b_a b) + vy (b_cog b) * cos (b_a b)).
Proof. unfold aligned. intros ->. ub. unR. repeat split; reflexivity. Qed.

Lemma set_position_aligned (b : Body R) p : aligned (b_set_position b p).
Proof. unfold b_set_position. act b. reflexivity. Qed.
Lemma set_position_pos (b : Body R) p : ta (b_tr b) = cos (b_a b) -> tb (b_tr b) = sin (b_a b) ->
  tc (b_tr b) = - sin (b_a b) -> td (b_tr b) = cos (b_a b) -> b_position (b_set_position b p) = p.
Proof.
  intros A1 A2 A3 A4. unfold b_set_position. act b. unfold b_position. apply vec_eq; ub; unR;
  rewrite ?A1, ?A2, ?A3, ?A4; ring.
Qed.
Lemma accumulate_aligned (b : Body R) : aligned b -> aligned (b_accumulate b).
Proof.
  unfold b_accumulate. destruct (negb (is_dynamic b)); auto. intros A.
  destruct (acc_loop (b_shapes b)) as [[m i] c]. apply set_position_aligned.
Qed.
Lemma accumulate_position (b : Body R) : aligned b -> b_position (b_accumulate b) = b_position b.
Proof.
  intros A. unfold b_accumulate. destruct (negb (is_dynamic b)); auto.
  destruct (acc_loop (b_shapes b)) as [[m i] c].
  apply aligned_tr in A as (A1 & A2 & A3 & A4 & _). apply set_position_pos; assumption.
Qed.
Lemma aligned_shapes (b : Body R) l : aligned b -> aligned (upd_shapes b l).
Proof. auto. Qed.

Lemma do_op_aligned b o : aligned b -> aligned (do_op b o).
Proof.
  intros A. destruct o; cbn [do_op].
  - apply set_position_aligned.
  - unfold b_set_angle. reflexivity.
  - unfold b_set_mass. act b. exact A.
  - unfold b_set_moment. act b. exact A.
  - unfold b_set_velocity_vector. act b. exact A.
  - unfold b_set_angular_velocity. act b. exact A.
  - unfold b_set_force. act b. exact A.
  - unfold b_set_torque. act b. exact A.
  - unfold b_apply_force_world. act b. exact A.
  - unfold b_apply_force_local, b_apply_force_world. act b. exact A.
  - unfold b_apply_impulse_world, apply_impulse. act b. exact A.
  - unfold b_apply_impulse_local, b_apply_impulse_world, apply_impulse. act b. exact A.
  - unfold b_add_shape. destruct (_ <? _)%num; [apply accumulate_aligned|]; exact A.
  - unfold b_remove_shape. destruct (nth_error _ _); [|exact A]. destruct (_ && _)%bool; [apply accumulate_aligned|]; exact A.
  - unfold b_shape_set_mass. destruct (nth_error _ _); [|exact A]. apply accumulate_aligned. act b. exact A.
  - unfold b_shape_set_geometry. destruct (nth_error _ _); [|exact A]. match goal with |- context [if ?c then _ else _] => destruct c end; [apply accumulate_aligned|]; exact A.
  - unfold b_set_type. match goal with |- context [if ?c then b else _] => destruct c end; [exact A|]. destruct ty; try exact A.
    apply accumulate_aligned. exact A.
  - unfold b_update_velocity. destruct (is_kinematic b); exact A.
  - unfold b_update_position. reflexivity.
  - exact A.
Qed.
Lemma new_aligned m i : aligned (b_new m i).
Proof. reflexivity. Qed.
Lemma after_aligned m i h : aligned (body_after m i h).
Proof.
  unfold body_after. generalize (new_aligned m i). generalize (b_new m i).
  induction h as [|o h IH]; intros b A; cbn; auto. apply IH, do_op_aligned, A.
Qed.

Lemma aligned_rigid b : aligned b -> rigid (b_tr b).
Proof.
  intros A. apply aligned_tr in A as (A1 & A2 & A3 & A4 & _). unfold rigid. rewrite A1, A2, A3, A4.
  pose proof (sin2_cos2 (b_a b)) as H. unfold Rsqr in H. repeat split; lra.
Qed.
Lemma aligned_l2w b x : aligned b -> b_local_to_world b x = vplus (b_position b) (turn (b_a b) x).
Proof.
  intros A. apply aligned_tr in A as (A1 & A2 & A3 & A4 & _). unfold b_local_to_world, b_position, vplus, turn.
  apply vec_eq; ub; unR; rewrite A1, A2, A3, A4 || rewrite A1, A3 || rewrite A2, A4; ring.
Qed.
Lemma aligned_cog b : aligned b -> b_local_to_world b (b_cog b) = b_p b.
Proof.
  intros A. apply aligned_tr in A as (A1 & A2 & A3 & A4 & A5 & A6). unfold b_local_to_world.
  apply vec_eq; ub; unR; rewrite ?A1, ?A2, ?A3, ?A4, ?A5, ?A6; ring.
Qed.
Lemma aligned_rotation b : aligned b -> b_rotation b = mkV (cos (b_a b)) (sin (b_a b)).
Proof. intros A. apply aligned_tr in A as (A1 & A2 & _). unfold b_rotation. now rewrite A1, A2. Qed.
Lemma rigid_dist t (p q : RV) : rigid t -> dist (t_point t p) (t_point t q) = dist p q.
Proof.
  intros (H1 & H2 & H3). unfold dist. f_equal. unfold dist2. ub; unR. rewrite H1, H2.
  transitivity (((vx p - vx q) * (vx p - vx q) + (vy p - vy q) * (vy p - vy q)) * (ta t * ta t + tb t * tb t)); [ring|rewrite H3; ring].
Qed.
Lemma set_angle_spec (b : Body R) a : aligned b ->
  b_a (b_set_angle b a) = a /\ b_local_to_world (b_set_angle b a) (b_cog (b_set_angle b a)) = b_local_to_world b (b_cog b) /\
  b_cog (b_set_angle b a) = b_cog b.
Proof.
  intros A. assert (A' : aligned (b_set_angle b a)) by (apply (do_op_aligned b (OpSetAngle a) A)).
  rewrite (aligned_cog _ A), (aligned_cog _ A').
  unfold b_set_angle. act b. ub. auto.
Qed.
Lemma set_angle_pos0 (b : Body R) a : aligned b -> b_cog b = vzero -> b_position (b_set_angle b a) = b_position b.
Proof.
  intros A Hc. destruct (set_angle_spec b a A) as (_ & H & Hc'). rewrite Hc', Hc in H. exact H.
Qed.
Lemma velocity_local_world b x : aligned b -> b_velocity_at_local b x = b_velocity_at_world b (b_local_to_world b x).
Proof.
  intros A. unfold b_velocity_at_local, b_velocity_at_world, b_local_to_world, vperp. apply vec_eq; ub; unR; ring.
Qed.
(** the velocity of a material point is the time derivative of its motion *)
Lemma velocity_world_spec b x : aligned b ->
  b_velocity_at_world b x = vplus (b_v b) (vscale (b_w b) (mkV (- (vy x - vy (b_p b))) (vx x - vx (b_p b)))).
Proof.
  intros A. unfold b_velocity_at_world. fold (b_local_to_world b (b_cog b)). rewrite (aligned_cog _ A).
  unfold vperp, vplus, vscale. apply vec_eq; ub; unR; ring.
Qed.

(** ** C08 *)
Lemma rsum_perm {A} (f : A -> R) l l' : Permutation l l' -> rsum f l = rsum f l'.
Proof. induction 1; cbn; lra. Qed.
Lemma rsum_app {A} (f : A -> R) l l' : rsum f (l ++ l') = rsum f l + rsum f l'.
Proof. induction l; cbn; lra. Qed.
Lemma filter_perm {A} (f : A -> bool) l l' : Permutation l l' -> Permutation (filter f l) (filter f l').
Proof.
  induction 1; cbn.
  - apply Permutation_refl.
  - destruct (f x); auto.
  - destruct (f x), (f y); auto. apply perm_swap.
  - eapply Permutation_trans; eauto.
Qed.
Lemma massive_app l x : massive (l ++ [x]) = massive l ++ (if Rlt_dec 0 (mi_m x) then [x] else []).
Proof. unfold massive. rewrite filter_app. cbn. destruct (Rlt_dec 0 (mi_m x)); reflexivity. Qed.
Lemma total_pos l : 0 <= total_mass l.
Proof.
  unfold total_mass, massive. induction l as [|s l IH]; cbn; [lra|]. destruct (Rlt_dec 0 (mi_m s)); cbn; lra.
Qed.
Lemma total_app l x : total_mass (l ++ [x]) = total_mass l + (if Rlt_dec 0 (mi_m x) then mi_m x else 0).
Proof. unfold total_mass. rewrite massive_app, rsum_app. destruct (Rlt_dec 0 (mi_m x)); cbn; lra. Qed.
Lemma total_zero_massive l : total_mass l = 0 -> massive l = [].
Proof.
  induction l as [|s l IH]; auto. unfold total_mass, massive in *; cbn. destruct (Rlt_dec 0 (mi_m s)); cbn; auto.
  intros. pose proof (total_pos l) as P. unfold total_mass, massive in P. lra.
Qed.
Lemma mean_num l (k : R) : total_mass l <> 0 ->
  vx (mean_cog l) * total_mass l = rsum (fun s => mi_m s * vx (mi_cog s)) (massive l) /\
  vy (mean_cog l) * total_mass l = rsum (fun s => mi_m s * vy (mi_cog s)) (massive l) /\ k = k.
Proof. intros. unfold mean_cog; cbn [vx vy]. repeat split; field; auto. Qed.
(** moment about any other centre *)
Lemma parallel_shift l c d :
  parallel_axis l c = parallel_axis l d + total_mass l * (norm2 c - norm2 d)
    - 2 * (rsum (fun s => mi_m s * vx (mi_cog s)) (massive l) * (vx c - vx d)
         + rsum (fun s => mi_m s * vy (mi_cog s)) (massive l) * (vy c - vy d)).
Proof.
  unfold parallel_axis, total_mass. induction (massive l) as [|s t IH]; cbn [rsum].
  - ring.
  - rewrite IH. unfold dist2, norm2. ring.
Qed.

Lemma lerp_mean (M m x y : R) : M + m <> 0 -> x * (1 - m / (M + m)) + y * (m / (M + m)) = (x * M + (m * y + 0)) / (M + m).
Proof. intros. field. assumption. Qed.
Lemma steiner1 (M m x y : R) : M + m <> 0 -> let z := x * (1 - m / (M + m)) + y * (m / (M + m)) in
  (x - y) * (x - y) * (m * M) / (M + m) = M * (z * z - x * x) - 2 * (x * M * (z - x)) + m * ((y - z) * (y - z)).
Proof. intros H z. unfold z. field. assumption. Qed.
Definition acc_ok (l : list (MassInfo R)) (r : R * R * RV) : Prop :=
  let '(m, i, c) := r in
  m = total_mass l /\ (total_mass l <> 0 -> c = mean_cog l) /\ (total_mass l = 0 -> c = vzero) /\
  i = parallel_axis l c.
Lemma acc_loop_ok l : acc_ok l (acc_loop l).
Proof.
  induction l as [|s l IH] using rev_ind.
  - unfold acc_loop; cbn -[vzero]. unfold acc_ok, total_mass, parallel_axis; cbn -[vzero]. repeat split; unR; try lra.
  - unfold acc_loop in *. rewrite fold_left_app. cbn [fold_left].
    destruct (fold_left acc_step l (nzero, nzero, vzero)) as [[m i] c]. destruct IH as (-> & IH1 & IH2 & ->).
    unfold acc_step. unR. unfold Rltb. destruct (Rlt_dec 0 (mi_m s)) as [Hs|Hs].
    + pose proof (total_pos l) as P. pose proof (total_app l s) as TA. destruct (Rlt_dec 0 (mi_m s)); [|lra].
      set (M := total_mass l) in *. set (m := mi_m s) in *.
      set (c' := vlerp c (mi_cog s) (m / (M + m))).
      assert (Hc' : c' = mean_cog (l ++ [s])).
      { unfold c', mean_cog. rewrite TA, massive_app. destruct (Rlt_dec 0 (mi_m s)); [|match goal with H: ~ _ |- _ => exfalso; apply H; exact Hs end]. rewrite !rsum_app. cbn [rsum].
        fold m. fold M. destruct (Req_dec M 0) as [E|E].
        - rewrite (total_zero_massive l E). rewrite (IH2 E). rewrite E.
          apply vec_eq; unfold vlerp; cbn [rsum]; ub; unR; rewrite lerp_mean by lra; f_equal; ring.
        - destruct (mean_num l 0 E) as (N1 & N2 & _). fold M in N1, N2. rewrite <- N1, <- N2, <- (IH1 E).
          clear - Hs P. clearbody m M.
          apply vec_eq; unfold vlerp; ub; unR; rewrite lerp_mean by lra; reflexivity. }
      unfold acc_ok. split; [symmetry; exact TA|]. split; [intros _; exact Hc'|]. split; [intros; lra|].
      replace (parallel_axis (l ++ [s]) c') with (parallel_axis l c' + (m * mi_i s + m * dist2 (mi_cog s) c')).
      2:{ unfold parallel_axis. rewrite massive_app, rsum_app. destruct (Rlt_dec 0 (mi_m s)); [|match goal with H: ~ _ |- _ => exfalso; apply H; exact Hs end]. cbn [rsum]. fold m. ring. }
      rewrite (parallel_shift l c' c). fold M.
      destruct (Req_dec M 0) as [E|E].
      * rewrite (total_zero_massive l E). cbn [rsum]. rewrite E.
        assert (c' = mi_cog s) as ->.
        { unfold c'. rewrite E. clear - Hs. clearbody m. apply vec_eq; unfold vlerp; ub; unR; rewrite lerp_mean by lra; field; lra. }
        unfold dist2. unfold Rdiv. ring.
      * destruct (mean_num l 0 E) as (N1 & N2 & _). fold M in N1, N2. rewrite <- N1, <- N2, <- (IH1 E).
        assert (Sx := steiner1 M m (vx c) (vx (mi_cog s)) ltac:(lra)). assert (Sy := steiner1 M m (vy c) (vy (mi_cog s)) ltac:(lra)).
        cbv zeta in Sx, Sy.
        assert (X : vx c' = vx c * (1 - m / (M + m)) + vx (mi_cog s) * (m / (M + m))) by reflexivity.
        assert (Y : vy c' = vy c * (1 - m / (M + m)) + vy (mi_cog s) * (m / (M + m))) by reflexivity.
        rewrite <- X in Sx. rewrite <- Y in Sy. clear - Sx Sy. clearbody c' M m.
        unfold vdistsq, vlensq, vdot, vsub, dist2, norm2; unR; cbn [vx vy].
        unfold Rdiv in *. set (q := / (M + m)) in *. clearbody q.
        generalize dependent (vx c'). generalize dependent (vy c'). intros yc Sy xc Sx.
        rewrite Rmult_plus_distr_r, Rmult_plus_distr_r. rewrite Sx, Sy. ring.
    + unfold acc_ok. rewrite total_app. destruct (Rlt_dec 0 (mi_m s)); [lra|].
      rewrite Rplus_0_r. split; auto.
      assert (massive (l ++ [s]) = massive l) as Em.
      { rewrite massive_app. destruct (Rlt_dec 0 (mi_m s)); [lra|]. apply app_nil_r. }
      unfold mean_cog, parallel_axis. rewrite Em, total_app. destruct (Rlt_dec 0 (mi_m s)); [lra|]. rewrite Rplus_0_r.
      repeat split; auto.
Qed.
Lemma total_perm l l' : Permutation l l' -> total_mass l = total_mass l'.
Proof. intros. unfold total_mass, massive. apply rsum_perm, filter_perm, H. Qed.
Lemma mean_perm l l' : Permutation l l' -> mean_cog l = mean_cog l'.
Proof.
  intros H. unfold mean_cog. rewrite (total_perm _ _ H). unfold massive.
  rewrite !(rsum_perm _ _ _ (filter_perm _ _ _ H)). reflexivity.
Qed.
Lemma parallel_perm l l' c : Permutation l l' -> parallel_axis l c = parallel_axis l' c.
Proof. intros. unfold parallel_axis, massive. apply rsum_perm, filter_perm, H. Qed.

Lemma accumulate_fields (b : Body R) : b_type b = DYNAMIC ->
  let '(m, i, c) := acc_loop (b_shapes b) in
  b_m (b_accumulate b) = m /\ b_i (b_accumulate b) = i /\ b_cog (b_accumulate b) = c /\
  b_minv (b_accumulate b) = 1 / m /\ b_iinv (b_accumulate b) = 1 / i /\ b_a (b_accumulate b) = b_a b /\
  b_v (b_accumulate b) = b_v b /\ b_w (b_accumulate b) = b_w b /\ b_shapes (b_accumulate b) = b_shapes b.
Proof.
  intros Ht. unfold b_accumulate, is_dynamic. rewrite Ht. cbn [negb].
  destruct (acc_loop (b_shapes b)) as [[m i] c]. unfold b_set_position.
  match goal with |- context [b_activate ?x] => let y := fresh in destruct (activate_eq x) as [y ->] end.
  clear Ht. ub. unfold none_. repeat match goal with |- _ /\ _ => split end; reflexivity.
Qed.
Lemma accumulate_spec (b : Body R) : b_type b = DYNAMIC -> 0 < total_mass (b_shapes b) ->
  let b' := b_accumulate b in
  b_m b' = total_mass (b_shapes b) /\ b_cog b' = mean_cog (b_shapes b) /\
  b_i b' = parallel_axis (b_shapes b) (mean_cog (b_shapes b)) /\
  b_minv b' = 1 / b_m b' /\ b_iinv b' = 1 / b_i b'.
Proof.
  intros Ht Hm. cbv zeta. pose proof (accumulate_fields b Ht) as H. pose proof (acc_loop_ok (b_shapes b)) as K.
  destruct (acc_loop (b_shapes b)) as [[m i] c]. destruct H as (-> & -> & -> & -> & -> & _).
  destruct K as (-> & K & _ & ->). rewrite K by lra. repeat split; reflexivity.
Qed.

(** swap_remove is a removal *)
Lemma removelast_set {A} (l : list A) (k : nat) (y : A) s :
  nth_error (l ++ [y]) k = Some s -> (k < length l)%nat ->
  Permutation (l ++ [y]) (s :: removelast (list_set (l ++ [y]) k y)).
Proof.
  revert k. induction l as [|x l IH]; intros k Hn Hk; [cbn in Hk; lia|].
  destruct k; cbn [app nth_error list_set] in *.
  - injection Hn as <-. destruct l; cbn [app].
    + cbn. apply Permutation_refl.
    +
      replace (removelast (y :: a :: l ++ [y])) with (y :: a :: l).
      2:{ change (y :: a :: l ++ [y]) with ((y :: a :: l) ++ [y]). now rewrite removelast_last. }
      apply perm_skip. change (a :: l ++ [y]) with ((a :: l) ++ [y]).
      apply Permutation_sym, Permutation_cons_append.
  - assert (E : list_set (l ++ [y]) k y <> []).
    { destruct l; cbn; destruct k; discriminate. }
    assert (removelast (x :: list_set (l ++ [y]) k y) = x :: removelast (list_set (l ++ [y]) k y)) as ->.
    { cbn [removelast]. destruct (list_set (l ++ [y]) k y); [contradiction|reflexivity]. }
    eapply Permutation_trans; [|apply perm_swap]. apply perm_skip, IH; auto. cbn in Hk. lia.
Qed.
Lemma list_set_last {A} (l : list A) y : list_set (l ++ [y]) (length l) y = l ++ [y].
Proof. induction l; cbn; congruence. Qed.
Lemma swap_remove_perm {A} (l : list A) k s : nth_error l k = Some s -> Permutation l (s :: swap_remove l k).
Proof.
  intros Hn. destruct l as [|x l'] using rev_ind; [destruct k; discriminate|]. clear IHl'.
  assert (Hk : (k < length (l' ++ [x]))%nat) by (apply nth_error_Some; congruence).
  unfold swap_remove. rewrite rev_app_distr. cbn [rev app].
  apply Nat.ltb_lt in Hk as Hk'. rewrite Hk'. rewrite app_length in Hk. cbn in Hk.
  destruct (Nat.eq_dec k (length l')) as [->|E].
  - rewrite list_set_last, removelast_last. rewrite nth_error_app2 in Hn by lia. rewrite Nat.sub_diag in Hn. cbn in Hn.
    injection Hn as <-. apply Permutation_sym, Permutation_cons_append.
  - apply removelast_set; auto. lia.
Qed.

(** ** C08 over histories *)
Definition mass_ok (b : Body R) : Prop :=
  b_m b = total_mass (b_shapes b) /\ (0 < total_mass (b_shapes b) ->
   b_cog b = mean_cog (b_shapes b) /\ b_i b = parallel_axis (b_shapes b) (mean_cog (b_shapes b)) /\
   b_minv b = 1 / b_m b /\ b_iinv b = 1 / b_i b).
Lemma accumulate_mass_ok (b : Body R) : b_type b = DYNAMIC -> mass_ok (b_accumulate b).
Proof.
  intros Ht. pose proof (accumulate_fields b Ht) as H. pose proof (acc_loop_ok (b_shapes b)) as K.
  unfold mass_ok. destruct (acc_loop (b_shapes b)) as [[m i] c].
  destruct H as (-> & -> & -> & -> & -> & _ & _ & _ & ->).
  destruct K as (-> & K & _ & ->). split; auto. intros. rewrite K by lra. repeat split; reflexivity.
Qed.
(** operations that leave mass data and shapes alone *)
Definition same_mass (b b' : Body R) : Prop :=
  b_m b' = b_m b /\ b_i b' = b_i b /\ b_cog b' = b_cog b /\ b_minv b' = b_minv b /\ b_iinv b' = b_iinv b /\ b_shapes b' = b_shapes b.
Lemma same_mass_ok b b' : same_mass b b' -> mass_ok b -> mass_ok b'.
Proof. unfold same_mass, mass_ok. intros (-> & -> & -> & -> & -> & ->). auto. Qed.
Lemma activate_type (b : Body R) : b_type (b_activate b) = b_type b.
Proof.
  unfold b_activate, is_dynamic. destruct (b_type b) eqn:E; auto.
  unfold b_type in *. destruct (b_idle b =? ninf)%num; [discriminate|]. destruct (b_m b =? ninf)%num eqn:E2; [discriminate|].
  cbn [upd_idle b_idle b_m]. rewrite E2. unR. destruct (Reqb 0 MaxFloat64) eqn:E3; auto.
  rbool. pose proof MaxFloat_big. lra.
Qed.
Lemma zero_not_inf : (@neqb R numR nzero ninf) = false.
Proof. unR. rbool. pose proof MaxFloat_big. lra. Qed.
(** [o] does not change type to dynamic and keeps mass data *)
Lemma accumulate_nondyn (b : Body R) : b_type b <> DYNAMIC -> b_accumulate b = b.
Proof. unfold b_accumulate, is_dynamic. destruct (b_type b); cbn; congruence. Qed.
Lemma type_same (b b' : Body R) : b_idle b' = b_idle b -> b_m b' = b_m b -> b_type b' = b_type b.
Proof. unfold b_type. intros -> ->. reflexivity. Qed.
Lemma massive_drop0 l l' s : Permutation l (s :: l') -> ~ 0 < mi_m s -> Permutation (massive l) (massive l').
Proof.
  intros H Hs. unfold massive. eapply Permutation_trans; [apply filter_perm, H|]. cbn. destruct (Rlt_dec 0 (mi_m s)); [lra|]. apply Permutation_refl.
Qed.
Lemma massive_set_light l : forall k s s', nth_error l k = Some s -> ~ 0 < mi_m s -> ~ 0 < mi_m s' -> massive (list_set l k s') = massive l.
Proof.
  induction l as [|x l IH]; intros [|k] s s' En A B; cbn in En |- *; try discriminate.
  - injection En as ->. destruct (Rlt_dec 0 (mi_m s)); [contradiction|]. destruct (Rlt_dec 0 (mi_m s')); [contradiction|reflexivity].
  - fold (massive (list_set l k s')). fold (massive l). rewrite (IH k s s' En A B). reflexivity.
Qed.
Lemma mass_ok_massive (b b' : Body R) :
  b_m b' = b_m b -> b_i b' = b_i b -> b_cog b' = b_cog b -> b_minv b' = b_minv b -> b_iinv b' = b_iinv b ->
  Permutation (massive (b_shapes b)) (massive (b_shapes b')) -> mass_ok b -> mass_ok b'.
Proof.
  unfold mass_ok. intros -> -> -> -> -> P.
  assert (T : total_mass (b_shapes b') = total_mass (b_shapes b)) by (unfold total_mass; symmetry; apply rsum_perm, P).
  assert (C : mean_cog (b_shapes b') = mean_cog (b_shapes b)).
  { unfold mean_cog. rewrite T. rewrite !(rsum_perm _ _ _ P). reflexivity. }
  assert (I : forall c, parallel_axis (b_shapes b') c = parallel_axis (b_shapes b) c) by (intros; unfold parallel_axis; symmetry; apply rsum_perm, P).
  rewrite T, C, I. auto.
Qed.
Definition dyn_mass (b : Body R) : Prop := b_type b = DYNAMIC -> mass_ok b.
Lemma accumulate_dyn_mass (b : Body R) : dyn_mass b \/ b_type b = DYNAMIC -> dyn_mass (b_accumulate b).
Proof.
  intros H. destruct (b_type b) eqn:E.
  - intros _. apply accumulate_mass_ok, E.
  - rewrite accumulate_nondyn by congruence. destruct H; [auto|congruence].
  - rewrite accumulate_nondyn by congruence. destruct H; [auto|congruence].
Qed.
Lemma do_op_dyn_mass b o : ~ manual_mass o -> dyn_mass b -> dyn_mass (do_op b o).
Proof.
  intros Hn D.
  assert (Same : forall b', b_type b' = b_type b -> same_mass b b' -> dyn_mass b').
  { intros b' Ht Hs. unfold dyn_mass. rewrite Ht. intros. eapply same_mass_ok; eauto. }
  assert (SA : same_mass b (b_activate b)).
  { act b. unfold same_mass; ub. repeat split; reflexivity. }
  assert (ST := activate_type b).
  Ltac same := repeat match goal with |- _ /\ _ => split end; reflexivity.
  assert (Act : forall b', b_idle b' = b_idle (b_activate b) -> same_mass (b_activate b) b' -> dyn_mass b').
  { intros b' Hi Hs. apply Same.
    - rewrite <- ST. apply type_same; auto. apply Hs.
    - destruct SA as (S1 & S2 & S3 & S4 & S5 & S6), Hs as (R1 & R2 & R3 & R4 & R5 & R6). unfold same_mass.
      rewrite R1, R2, R3, R4, R5, R6. repeat split; auto. }
  destruct o; cbn [do_op].
  - apply Act; [reflexivity|]. unfold same_mass. same.
  - apply Act; [reflexivity|]. unfold same_mass. same.
  - exfalso; apply Hn; exact I.
  - exfalso; apply Hn; exact I.
  - apply Act; [reflexivity|]. unfold same_mass. same.
  - apply Act; [reflexivity|]. unfold same_mass. same.
  - apply Act; [reflexivity|]. unfold same_mass. same.
  - apply Act; [reflexivity|]. unfold same_mass. same.
  - apply Act; [reflexivity|]. unfold same_mass. same.
  - apply Act; [reflexivity|]. unfold same_mass. same.
  - apply Act; [reflexivity|]. unfold same_mass. same.
  - apply Act; [reflexivity|]. unfold same_mass. same.
  - (* AddShape *) unfold b_add_shape. unR. destruct (Rltb 0 (mi_m s)) eqn:E; rbool.
    + destruct (b_type b) eqn:Et.
      * apply accumulate_dyn_mass. right. rewrite <- Et. apply type_same; reflexivity.
      * rewrite accumulate_nondyn; intro X; rewrite (type_same b) in X by reflexivity; congruence.
      * rewrite accumulate_nondyn; intro X; rewrite (type_same b) in X by reflexivity; congruence.
    + intro X. rewrite (type_same b) in X by reflexivity. apply D in X. revert X. apply mass_ok_massive; try reflexivity.
      cbn [upd_shapes b_shapes]. rewrite massive_app. destruct (Rlt_dec 0 (mi_m s)); [lra|]. rewrite app_nil_r. apply Permutation_refl.
  - (* RemoveShape *) unfold b_remove_shape. destruct (nth_error (b_shapes b) k) as [s|] eqn:En; [|exact D].
    unfold is_dynamic. rewrite (type_same b (upd_shapes b (swap_remove (b_shapes b) k))) by reflexivity.
    destruct (b_type b) eqn:Et; cbn [andb].
    + unR. destruct (Rltb 0 (mi_m s)) eqn:E; rbool.
      * apply accumulate_dyn_mass. right. rewrite <- Et. apply type_same; reflexivity.
      * intros _. apply D in Et. revert Et. apply mass_ok_massive; try reflexivity.
        cbn [upd_shapes b_shapes]. apply massive_drop0 with s; [apply swap_remove_perm, En|lra].
    + intro X. rewrite (type_same b) in X by reflexivity. congruence.
    + intro X. rewrite (type_same b) in X by reflexivity. congruence.
  - (* Shape.SetMass *) unfold b_shape_set_mass. destruct (nth_error (b_shapes b) k) as [s|] eqn:En; [|exact D].
    match goal with |- dyn_mass (b_accumulate ?x) => assert (Tx : b_type x = b_type b) end.
    { rewrite <- ST. apply type_same; reflexivity. }
    apply accumulate_dyn_mass. destruct (b_type b) eqn:Et; [right; congruence| |]; left; intro X; congruence.
  - (* geometry *) unfold b_shape_set_geometry. destruct (nth_error (b_shapes b) k) as [s|] eqn:En; [|exact D]. unR. destruct (Rltb 0 (mi_m s)) eqn:E; rbool.
    + destruct (b_type b) eqn:Et.
      * apply accumulate_dyn_mass. right. rewrite <- Et. apply type_same; reflexivity.
      * rewrite accumulate_nondyn; intro X; rewrite (type_same b) in X by reflexivity; congruence.
      * rewrite accumulate_nondyn; intro X; rewrite (type_same b) in X by reflexivity; congruence.
    + intro X. rewrite (type_same b) in X by reflexivity. apply D in X. revert X. apply mass_ok_massive; try reflexivity.
      cbn [upd_shapes b_shapes]. rewrite (massive_set_light _ k s); [apply Permutation_refl|exact En|lra|cbn; lra].
  - (* SetType *) unfold b_set_type. match goal with |- context [if ?c then b else _] => destruct c end; [exact D|].
    destruct ty.
    + apply accumulate_dyn_mass. right. unfold b_type. cbn [upd_moment upd_mass upd_idle b_idle b_m]. rewrite zero_not_inf. reflexivity.
    + intro X. exfalso. unfold b_type in X. cbn [upd_vel upd_moment upd_mass upd_idle b_idle b_m] in X. rewrite zero_not_inf in X.
      unR. destruct (Reqb MaxFloat64 MaxFloat64) eqn:E; [discriminate|]. rbool. congruence.
    + intro X. exfalso. unfold b_type in X. cbn [upd_vel upd_moment upd_mass upd_idle b_idle b_m] in X.
      unR. destruct (Reqb MaxFloat64 MaxFloat64) eqn:E; [discriminate|]. rbool. congruence.
  - apply Same; unfold b_update_velocity; destruct (is_kinematic b); unfold same_mass; try same; apply type_same; reflexivity.
  - apply Same; [apply type_same; reflexivity|]. unfold same_mass. same.
  - apply Same; [apply type_same; reflexivity|]. unfold same_mass. same.
Qed.
Lemma new_dyn_mass : dyn_mass (b_new 0 0).
Proof.
  intros _. unfold mass_ok. 
  assert (b_shapes (b_new (T:=R) 0 0) = []) as ->.
  { unfold b_new, b_set_angle. match goal with |- context [b_activate ?x] => act x end. unfold b_set_moment.
    match goal with |- context [b_activate ?x] => act x end. unfold b_set_mass. match goal with |- context [b_activate ?x] => act x end. reflexivity. }
  assert (b_m (b_new (T:=R) 0 0) = 0) as ->.
  { unfold b_new, b_set_angle. match goal with |- context [b_activate ?x] => act x end. unfold b_set_moment.
    match goal with |- context [b_activate ?x] => act x end. unfold b_set_mass. match goal with |- context [b_activate ?x] => act x end. reflexivity. }
  unfold total_mass; cbn. split; [lra|]. intros; lra.
Qed.
Lemma history_mass h : automatic h -> dyn_mass (body_after 0 0 h).
Proof.
  unfold body_after, automatic. generalize new_dyn_mass. generalize (b_new 0 0).
  induction h as [|o h IH]; intros b D Hh; cbn; auto. inversion Hh; subst. apply IH; auto. apply do_op_dyn_mass; auto.
Qed.

(** ** C52 *)
Lemma update_velocity_dyn (b : Body R) g d dt : b_type b <> KINEMATIC ->
  let b' := b_update_velocity b g d dt in
  b_v b' = vplus (vscale d (b_v b)) (vscale dt (vplus g (vscale (b_minv b) (b_f b)))) /\
  b_w b' = d * b_w b + dt * (b_iinv b * b_t b) /\ b_f b' = mkV 0 0 /\ b_t b' = 0 /\
  b_p b' = b_p b /\ b_a b' = b_a b /\ b_tr b' = b_tr b.
Proof.
  intros Hk. cbv zeta. unfold b_update_velocity, is_kinematic. destruct (b_type b) eqn:E; try congruence;
  (clear Hk E; split; [apply vec_eq; unfold vplus, vscale; ub; unR; ring|]; split; [ub; unR; ring|];
   repeat match goal with |- _ /\ _ => split end; reflexivity).
Qed.
Lemma free_step_type g d dt b : b_type (free_step g d dt b) = b_type b.
Proof.
  unfold free_step, b_update_velocity. destruct (is_kinematic _); apply type_same; reflexivity.
Qed.
Lemma free_steps_type g d dt n b : b_type (free_steps g d dt n b) = b_type b.
Proof. induction n; cbn; auto. rewrite free_step_type; auto. Qed.
Lemma free_step_pa g d dt b : b_vbias b = mkV 0 0 -> b_wbias b = 0 ->
  b_p (free_step g d dt b) = vplus (b_p b) (vscale dt (b_v b)) /\ b_a (free_step g d dt b) = b_a b + dt * b_w b /\
  b_vbias (free_step g d dt b) = mkV 0 0 /\ b_wbias (free_step g d dt b) = 0.
Proof.
  intros Hb Hw. unfold free_step, b_update_velocity.
  destruct (is_kinematic (b_update_position b dt)); unfold b_update_position; ub; rewrite Hb, Hw; unfold vplus, vscale;
  (split; [apply vec_eq; ub; unR; ring|]; split; [unR; ring|]; split; reflexivity).
Qed.
Lemma free_step_vw_dyn g d dt b : b_type b = DYNAMIC ->
  b_v (free_step g d dt b) = vplus (vscale d (b_v b)) (vscale dt (vplus g (vscale (b_minv b) (b_f b)))) /\
  b_w (free_step g d dt b) = d * b_w b + dt * (b_iinv b * b_t b) /\
  b_f (free_step g d dt b) = mkV 0 0 /\ b_t (free_step g d dt b) = 0.
Proof.
  intros Ht. unfold free_step. pose proof (update_velocity_dyn (b_update_position b dt) g d dt) as H.
  destruct H as (H1 & H2 & H3 & H4 & _).
  { rewrite (type_same b) by reflexivity. congruence. }
  rewrite H1, H2, H3, H4. repeat split; reflexivity.
Qed.
Lemma free_step_vw_kin g d dt b : b_type b = KINEMATIC ->
  b_v (free_step g d dt b) = b_v b /\ b_w (free_step g d dt b) = b_w b /\ b_f (free_step g d dt b) = b_f b /\ b_t (free_step g d dt b) = b_t b.
Proof.
  intros Ht. unfold free_step, b_update_velocity, is_kinematic. rewrite (type_same b) by reflexivity. rewrite Ht. repeat split; reflexivity.
Qed.
(** gravity only, no damping *)
Lemma free_fall g dt n b : b_type b = DYNAMIC -> b_vbias b = mkV 0 0 -> b_wbias b = 0 -> b_f b = mkV 0 0 -> b_t b = 0 ->
  let b' := free_steps g 1 dt n b in
  b_v b' = vplus (b_v b) (vscale (INR n * dt) g) /\ b_w b' = b_w b /\
  b_p b' = vplus (b_p b) (vplus (vscale (INR n * dt) (b_v b)) (vscale (dt * dt * (INR n * (INR n - 1) / 2)) g)) /\
  b_a b' = b_a b + INR n * dt * b_w b /\ b_vbias b' = mkV 0 0 /\ b_wbias b' = 0 /\ b_f b' = mkV 0 0 /\ b_t b' = 0.
Proof.
  intros Ht Hb Hw Hf Htq. cbv zeta. induction n as [|n (I1 & I2 & I3 & I4 & I5 & I6 & I7 & I8)].
  - cbn [free_steps INR]. split; [|split; [|split; [|split; [|repeat split; auto]]]].
    + apply vec_eq; unfold vplus, vscale; cbn [vx vy]; ring.
    + reflexivity.
    + apply vec_eq; unfold vplus, vscale; cbn [vx vy]; field.
    + ring.
  - cbn [free_steps]. set (x := free_steps g 1 dt n b) in *.
    assert (Tx : b_type x = DYNAMIC) by (unfold x; rewrite free_steps_type; exact Ht).
    destruct (free_step_pa g 1 dt x I5 I6) as (P1 & P2 & P3 & P4).
    destruct (free_step_vw_dyn g 1 dt x Tx) as (Q1 & Q2 & Q3 & Q4).
    rewrite P1, P2, P3, P4, Q1, Q2, Q3, Q4, I1, I2, I3, I4, I7, I8, S_INR.
    repeat match goal with |- _ /\ _ => split end; try reflexivity;
    try (apply vec_eq; unfold vplus, vscale; cbn [vx vy]; field); ring.
Qed.
Lemma kinematic_flight g d dt n b : b_type b = KINEMATIC -> b_vbias b = mkV 0 0 -> b_wbias b = 0 ->
  let b' := free_steps g d dt n b in
  b_v b' = b_v b /\ b_w b' = b_w b /\ b_f b' = b_f b /\ b_t b' = b_t b /\
  b_p b' = vplus (b_p b) (vscale (INR n * dt) (b_v b)) /\ b_a b' = b_a b + INR n * dt * b_w b /\
  b_vbias b' = mkV 0 0 /\ b_wbias b' = 0.
Proof.
  intros Ht Hb Hw. cbv zeta. induction n as [|n (I1 & I2 & I3 & I4 & I5 & I6 & I7 & I8)].
  - cbn [free_steps INR]. repeat match goal with |- _ /\ _ => split end; auto; [apply vec_eq; unfold vplus, vscale; cbn [vx vy]; ring|ring].
  - cbn [free_steps]. set (x := free_steps g d dt n b) in *.
    assert (Tx : b_type x = KINEMATIC) by (unfold x; rewrite free_steps_type; exact Ht).
    destruct (free_step_pa g d dt x I7 I8) as (P1 & P2 & P3 & P4).
    destruct (free_step_vw_kin g d dt x Tx) as (Q1 & Q2 & Q3 & Q4).
    rewrite P1, P2, P3, P4, Q1, Q2, Q3, Q4, I1, I2, I3, I4, I5, I6, S_INR.
    repeat match goal with |- _ /\ _ => split end; try reflexivity;
    try (apply vec_eq; unfold vplus, vscale; cbn [vx vy]; ring); ring.
Qed.

(** ** C56 *)
Lemma ke_nonneg (b : Body R) : 0 <= b_m b -> 0 <= b_i b -> 0 <= b_kinetic_energy b.
Proof.
  intros Hm Hi. unfold b_kinetic_energy. unR. rewrite vdot_inner.
  assert (0 <= inner (b_v b) (b_v b)) by (unfold inner; nra).
  assert (0 <= b_w b * b_w b) by nra.
  destruct (negb _), (negb _); nra.
Qed.
Lemma ke_value (b : Body R) : b_kinetic_energy b = b_m b * norm2 (b_v b) + b_i b * (b_w b * b_w b).
Proof.
  unfold b_kinetic_energy. unR. change (vdot (b_v b) (b_v b)) with (norm2 (b_v b)).
  destruct (Reqb (norm2 (b_v b)) 0) eqn:E1, (Reqb (b_w b * b_w b) 0) eqn:E2; rbool; cbn [negb]; rewrite ?E1, ?E2; ring.
Qed.
Lemma ke_zero_iff (b : Body R) : 0 < b_m b -> 0 < b_i b ->
  (b_kinetic_energy b = 0 <-> b_v b = mkV 0 0 /\ b_w b = 0).
Proof.
  intros Hm Hi. rewrite ke_value. unfold norm2. split.
  - intros E. assert (0 <= vx (b_v b) * vx (b_v b)) by nra. assert (0 <= vy (b_v b) * vy (b_v b)) by nra.
    assert (0 <= b_w b * b_w b) by nra.
    assert (vx (b_v b) * vx (b_v b) = 0) by nra. assert (vy (b_v b) * vy (b_v b) = 0) by nra. assert (b_w b * b_w b = 0) by nra.
    split; [apply vec_eq; cbn [vx vy]; nra|nra].
  - intros [-> ->]. cbn [vx vy]. ring.
Qed.

Lemma accumulate_type (b : Body R) : b_type b = DYNAMIC -> total_mass (b_shapes b) < MaxFloat64 -> b_type (b_accumulate b) = DYNAMIC.
Proof.
  intros Ht Hm. unfold b_accumulate, is_dynamic. rewrite Ht. cbn [negb].
  pose proof (acc_loop_ok (b_shapes b)) as K. destruct (acc_loop (b_shapes b)) as [[m i] c]. destruct K as (-> & _).
  unfold b_set_position. match goal with |- context [b_activate ?x] => set (y := x) end.
  assert (b_type y = DYNAMIC) as Hy.
  { unfold b_type in *. unfold y; cbn [upd_moment upd_mass upd_cog b_idle b_m]. destruct (b_idle b =? ninf)%num; [discriminate|].
    unR. destruct (Reqb (total_mass (b_shapes b)) MaxFloat64) eqn:E; auto. rbool. lra. }
  rewrite <- Hy, <- (activate_type y). apply type_same; reflexivity.
Qed.
Lemma new_type m i : m < MaxFloat64 -> b_type (b_new m i) = DYNAMIC.
Proof.
  intros Hm. unfold b_new. set (b0 := mkBody _ _ _ _ _ _ _ _ _ _ _ _ _ _ _ _).
  assert (T0 : b_type b0 = DYNAMIC).
  { unfold b_type, b0; cbn [b_idle b_m]. now rewrite zero_not_inf. }
  assert (T1 : b_type (b_set_mass b0 m) = DYNAMIC).
  { unfold b_set_mass, b_activate, is_dynamic. rewrite T0. unfold b_type; cbn [upd_mass upd_idle b_idle b_m]. rewrite zero_not_inf.
    unR. destruct (Reqb m MaxFloat64) eqn:E; auto. rbool. lra. }
  assert (T2 : b_type (b_set_moment (b_set_mass b0 m) i) = DYNAMIC).
  { rewrite <- T1, <- (activate_type (b_set_mass b0 m)). apply type_same; reflexivity. }
  rewrite <- T2, <- (activate_type (b_set_moment _ i)). apply type_same; reflexivity.
Qed.
Lemma add_shape_type (b : Body R) s : b_type b = DYNAMIC -> total_mass (b_shapes b ++ [s]) < MaxFloat64 -> b_type (b_add_shape b s) = DYNAMIC.
Proof.
  intros Ht Hm. unfold b_add_shape. destruct (_ <? _)%num.
  - apply accumulate_type; [rewrite <- Ht; apply type_same; reflexivity|exact Hm].
  - rewrite <- Ht; apply type_same; reflexivity.
Qed.
Lemma add_shape_shapes (b : Body R) s : b_shapes (b_add_shape b s) = b_shapes b ++ [s].
Proof.
  unfold b_add_shape. destruct (_ <? _)%num; auto. unfold b_accumulate. destruct (negb _); auto.
  destruct (acc_loop _) as [[? ?] ?]. unfold b_set_position. match goal with |- context [b_activate ?x] => act x end. reflexivity.
Qed.
Lemma new_shapes m i : b_shapes (b_new (T:=R) m i) = [].
Proof.
  unfold b_new, b_set_angle. match goal with |- context [b_activate ?x] => act x end. unfold b_set_moment.
    match goal with |- context [b_activate ?x] => act x end. unfold b_set_mass. match goal with |- context [b_activate ?x] => act x end. reflexivity.
Qed.
