(** Systems at rest whose stored impulses carry the weights. *)
From Coq Require Import Reals ZArith Bool List Lra Lia FunctionalExtensionality.
From Verif Require Import Num Spec SpecBody SpecSolver SpecStep.
From Verif.Model Require Import Vector BB Transform Body Solver Step.
From Verif.Proofs Require Import RTac Geom BodyPf SolverPf StepPf StepMech.
Import ListNotations.
Local Open Scope R_scope.

Notation st := (@store R).
Lemma put_self (w : st) i : put w i (w i) = w.
Proof. apply functional_extensionality. intros k. unfold put. destruct (Nat.eqb_spec k i); congruence. Qed.
(** loops that leave the bodies alone *)
Lemma each_link_frame {X} (f : X -> Body R -> Body R -> X * Body R * Body R) (g : X -> Body R -> Body R -> X) l (w : st) :
  (forall i k x, In (i, k, x) l -> f x (w i) (w k) = (g x (w i) (w k), w i, w k)) ->
  each_link f l w = (w, map (fun '(i, k, x) => (i, k, g x (w i) (w k))) l).
Proof.
  induction l as [|[[i k] x] l IH]; intros E; cbn [each_link map]; [reflexivity|].
  rewrite (E i k x) by (now left). rewrite !put_self. rewrite IH; [reflexivity|]. intros; apply E; now right.
Qed.
Lemma each_link_id {X} (f : X -> Body R -> Body R -> X * Body R * Body R) l (w : st) :
  (forall i k x, In (i, k, x) l -> f x (w i) (w k) = (x, w i, w k)) -> each_link f l w = (w, l).
Proof.
  intros E. rewrite (each_link_frame f (fun x _ _ => x)) by exact E. f_equal. rewrite <- (map_id l) at 2. apply map_ext. intros [[i k] x]. reflexivity.
Qed.
Lemma iterate_id dt n (w : st) arbs js : (forall i k x, In (i, k, x) arbs -> arb_apply_impulse x (w i) (w k) = (x, w i, w k)) ->
  (forall i k x, In (i, k, x) js -> solve_con dt x (w i) (w k) = (x, w i, w k)) -> iterate dt n (w, arbs, js) = (w, arbs, js).
Proof.
  intros E1 E2. induction n as [|n IH]; cbn [iterate]; [reflexivity|]. rewrite (each_link_id _ _ _ E1), (each_link_id _ _ _ E2). exact IH.
Qed.

(** ** pushes *)
Definition kick (coef : R) (P : list push) (w : st) : st := fun i => upd_vel (w i)
  (vplus (b_v (w i)) (vscale (b_minv (w i) * coef) (impulse_on P i))) (b_w (w i) + b_iinv (w i) * (coef * twist_on P i)).
Lemma kick_nil coef w : kick coef [] w = w.
Proof.
  apply functional_extensionality. intros i. unfold kick. cbn [impulse_on twist_on fold_right].
  replace (vplus (b_v (w i)) _) with (b_v (w i)) by (unfold vplus, vscale; apply vec_eq; cbn [vx vy]; ring). rewrite !Rmult_0_r, Rplus_0_r. destruct (w i); reflexivity.
Qed.
Lemma kick_app coef P Q w : kick coef Q (kick coef P w) = kick coef (P ++ Q) w.
Proof.
  assert (A : forall i, impulse_on (P ++ Q) i = vplus (impulse_on P i) (impulse_on Q i)).
  { intros i. induction P as [|[[[[a b] r1] r2] J] P IH].
    - change (impulse_on [] i) with (mkV 0 0 : RV). unfold vplus. apply vec_eq; cbn [vx vy app]; ring.
    - set (x := if Nat.eqb i b then J else if Nat.eqb i a then vscale (-1) J else mkV 0 0).
      change (vplus x (impulse_on (P ++ Q) i) = vplus (vplus x (impulse_on P i)) (impulse_on Q i)). rewrite IH. now rewrite vplus_assoc. }
  assert (B : forall i, twist_on (P ++ Q) i = twist_on P i + twist_on Q i).
  { clear A. intros i. induction P as [|[[[[a b] r1] r2] J] P IH].
    - change (twist_on [] i) with 0. cbn [app]. ring.
    - set (x := if Nat.eqb i b then crossR r2 J else if Nat.eqb i a then - crossR r1 J else 0).
      change (x + twist_on (P ++ Q) i = x + twist_on P i + twist_on Q i). rewrite IH. ring. }
  apply functional_extensionality. intros i. unfold kick. cbn [b_v b_w b_minv b_iinv upd_vel]. rewrite A, B.
  replace (vplus (vplus _ _) _) with (vplus (b_v (w i)) (vscale (b_minv (w i) * coef) (vplus (impulse_on P i) (impulse_on Q i)))) by (unfold vplus, vscale; apply vec_eq; cbn [vx vy]; ring).
  replace (b_w (w i) + b_iinv (w i) * (coef * (twist_on P i + twist_on Q i))) with (b_w (w i) + b_iinv (w i) * (coef * twist_on P i) + b_iinv (w i) * (coef * twist_on Q i)) by ring.
  reflexivity.
Qed.
Lemma kick_one coef (w : st) i k r1 r2 J : i <> k ->
  let '(a, b) := apply_impulses (w i) (w k) r1 r2 (vscale coef J) in put (put w i a) k b = kick coef [(i, k, r1, r2, J)] w.
Proof.
  intros Ne. unfold apply_impulses. apply functional_extensionality. intros j. unfold put, kick. cbn [impulse_on twist_on fold_right].
  destruct (Nat.eqb_spec j k) as [->|Nk]; [|destruct (Nat.eqb_spec j i) as [->|Ni]].
  - f_equal; unfold vplus, vscale, crossR; unR; [apply vec_eq|]; cbn [vx vy]; ring.
  - f_equal; unfold vplus, vscale, crossR; unR; [apply vec_eq|]; cbn [vx vy]; ring.
  - replace (vplus (b_v (w j)) _) with (b_v (w j)) by (unfold vplus, vscale; apply vec_eq; cbn [vx vy]; ring).
    replace (b_w (w j) + b_iinv (w j) * (coef * (0 + 0))) with (b_w (w j)) by ring. destruct (w j); reflexivity.
Qed.
Lemma half_turn (n : RV) : turn (PI / 2) n = mkV (- vy n) (vx n).
Proof. unfold turn. rewrite cos_PI2, sin_PI2. apply vec_eq; cbn [vx vy]; ring. Qed.
(** the contacts of one arbiter *)
Lemma kick_contacts coef (n : RV) (w : st) i k l : i <> k ->
  let '(a, b) := fold_left (fun '(a, b) con => let j := vrotate n (mkV (c_jnAcc con) (c_jtAcc con)) in apply_impulses a b (c_r1 con) (c_r2 con) (vmult j coef)) l (w i, w k) in
  put (put w i a) k b = kick coef (map (fun c => (i, k, c_r1 c, c_r2 c, vplus (vscale (c_jnAcc c) n) (vscale (c_jtAcc c) (turn (PI / 2) n)))) l) w.
Proof.
  intros Ne. revert w. induction l as [|c l IH]; intros w; cbn [fold_left map].
  - rewrite put_self, put_self. symmetry. apply kick_nil.
  - cbv zeta. set (J := vplus (vscale (c_jnAcc c) n) (vscale (c_jtAcc c) (turn (PI / 2) n))).
    replace (vmult (vrotate n (mkV (c_jnAcc c) (c_jtAcc c))) coef) with (vscale coef J)
      by (unfold J; rewrite half_turn; unfold vscale, vplus, vmult, vrotate; unR; apply vec_eq; cbn [vx vy]; ring).
    pose proof (kick_one coef w i k (c_r1 c) (c_r2 c) J Ne) as K. destruct (apply_impulses (w i) (w k) (c_r1 c) (c_r2 c) (vscale coef J)) as [a b].
    specialize (IH (put (put w i a) k b)).
    assert (Wi : put (put w i a) k b i = a) by (rewrite put_other, put_same; auto). assert (Wk : put (put w i a) k b k = b) by (rewrite put_same; auto).
    rewrite Wi, Wk in IH. cbv zeta in IH. destruct (fold_left _ l (a, b)) as [a2 b2].
    replace (put (put w i a2) k b2) with (put (put (put (put w i a) k b) i a2) k b2).
    + rewrite IH, K, kick_app. reflexivity.
    + apply functional_extensionality. intros j. unfold put. destruct (Nat.eqb j k); [reflexivity|]. destruct (Nat.eqb j i); reflexivity.
Qed.
Lemma kick_arbs coef l : forall w : st, (forall i k x, In (i, k, x) l -> i <> k /\ ar_state x <> FirstCollision) ->
  fst (each_link (cached_arb coef) l w) = kick coef (contact_pushes l) w.
Proof.
  induction l as [|[[i k] arb] l IH]; intros w Hl; cbn [each_link contact_pushes flat_map]; [symmetry; apply kick_nil|].
  destruct (Hl i k arb (or_introl eq_refl)) as [Ne Ns]. unfold cached_arb at 1, arb_apply_cached.
  pose proof (kick_contacts coef (ar_n arb) w i k (ar_contacts arb) Ne) as K. cbv zeta in K. fold (contact_pushes l).
  destruct (ar_state arb); try congruence; cbv zeta;
    (destruct (fold_left _ (ar_contacts arb) (w i, w k)) as [a b]; specialize (IH (put (put w i a) k b) (fun i' k' x' H => Hl i' k' x' (or_intror H)));
     destruct (each_link (cached_arb coef) l (put (put w i a) k b)) as [w' l']; cbn [fst] in *; rewrite IH, K, kick_app; reflexivity).
Qed.
Definition has_arms (w0 : st) (t : link (@Params R * @Joint R)) : Prop :=
  let '(i, k, (p, j)) := t in i <> k /\ match j with JPivot q => piv_r1 q = arm (w0 i) (piv_A q) /\ piv_r2 q = arm (w0 k) (piv_B q) | _ => False end.
Lemma kick_cons coef (w0 : st) l : forall w : st, Forall (has_arms w0) l -> fst (each_link (cached_con coef) l w) = kick coef (pivot_pushes w0 l) w.
Proof.
  induction l as [|[[i k] [p j]] l IH]; intros w Hl; cbn [each_link pivot_pushes flat_map]; [symmetry; apply kick_nil|].
  inversion Hl as [|? ? Hh Hr]; subst. cbv beta iota delta [has_arms] in Hh. destruct Hh as [Ne Hj]. destruct j as [|q| | | | | | | |]; try contradiction. destruct Hj as [E1 E2].
  unfold cached_con at 1. cbn [snd j_cached]. replace (vmult (piv_jAcc q) coef) with (vscale coef (piv_jAcc q)) by (unfold vscale, vmult; unR; apply vec_eq; cbn [vx vy]; ring).
  pose proof (kick_one coef w i k (piv_r1 q) (piv_r2 q) (piv_jAcc q) Ne) as K. destruct (apply_impulses (w i) (w k) _ _ _) as [a b].
  specialize (IH (put (put w i a) k b) Hr). destruct (each_link (cached_con coef) l (put (put w i a) k b)) as [w' l']. cbn [fst] in *.
  rewrite IH, K, kick_app. fold (pivot_pushes w0 l). rewrite E1, E2. reflexivity.
Qed.

(** ** nothing moves *)
Lemma still_rel a b (r1 r2 : RV) : still a -> still b -> relative_velocity a b r1 r2 = mkV 0 0.
Proof. intros (E1 & E2 & _) (E3 & E4 & _). unfold relative_velocity. rewrite E1, E2, E3, E4. unfold vsub, vadd, vmult, vperp. unR. apply vec_eq; cbn [vx vy]; ring. Qed.
Lemma impulses_zero (a b : Body R) r1 r2 : apply_impulses a b r1 r2 (mkV 0 0) = (a, b).
Proof.
  unfold apply_impulses. unR. cbn [vx vy]. f_equal.
  - replace (mkV _ _) with (b_v a) by (apply vec_eq; cbn [vx vy]; ring). replace (b_w a + _) with (b_w a) by ring. destruct a; reflexivity.
  - replace (mkV _ _) with (b_v b) by (apply vec_eq; cbn [vx vy]; ring). replace (b_w b + _) with (b_w b) by ring. destruct b; reflexivity.
Qed.
Lemma bias_zero (a b : Body R) r1 r2 : apply_bias_impulses a b r1 r2 (mkV 0 0) = (a, b).
Proof.
  unfold apply_bias_impulses. unR. cbn [vx vy]. f_equal.
  - replace (mkV _ _) with (b_vbias a) by (apply vec_eq; cbn [vx vy]; ring). replace (b_wbias a + _) with (b_wbias a) by ring. destruct a; reflexivity.
  - replace (mkV _ _) with (b_vbias b) by (apply vec_eq; cbn [vx vy]; ring). replace (b_wbias b + _) with (b_wbias b) by ring. destruct b; reflexivity.
Qed.
(** a contact after PreStep that has nothing to correct *)
Definition quiet (u : R) (c : Contact R) : Prop := 0 <= c_jnAcc c /\ Rabs (c_jtAcc c) <= u * c_jnAcc c /\ c_bias c = 0 /\ c_bounce c = 0 /\ c_jBias c = 0.
Lemma contact_quiet n u a b c : still a -> still b -> quiet u c -> contact_step n (mkV 0 0) u a b c = (a, b, c).
Proof.
  intros Sa Sb (J1 & J2 & B1 & B2 & B3). unfold contact_step. rewrite (still_rel a b _ _ Sa Sb). destruct Sa as (_ & _ & A3 & A4). destruct Sb as (_ & _ & C3 & C4).
  rewrite A3, A4, C3, C4, B1, B2, B3. cbv zeta.
  assert (E1 : vdot (vadd (mkV 0 0) (mkV 0 0)) n = 0) by (unfold vdot, vadd; unR; cbn [vx vy]; ring).
  assert (E2 : vdot (vadd (mkV 0 0) (mkV 0 0)) (vperp n) = 0) by (unfold vdot, vadd; unR; cbn [vx vy]; ring).
  assert (E3 : vdot (vsub (vadd (mkV 0 0) (vmult (vperp (c_r2 c)) 0)) (vadd (mkV 0 0) (vmult (vperp (c_r1 c)) 0))) n = 0) by (unfold vdot, vsub, vadd, vmult; unR; cbn [vx vy]; ring).
  rewrite E1, E2, E3. change (nzero : R) with 0. unR.
  replace (Rmax (0 + (0 - 0) * c_nMass c) 0) with 0 by (rewrite Rmax_left; lra).
  replace (Rmax (c_jnAcc c + - (0 + 0) * c_nMass c) 0) with (c_jnAcc c) by (rewrite Rmax_left; lra).
  assert (Jt : nclamp (c_jtAcc c + - 0 * c_tMass c) (- (u * c_jnAcc c)) (u * c_jnAcc c) = c_jtAcc c).
  { assert (0 <= u * c_jnAcc c) by (pose proof (Rabs_pos (c_jtAcc c)); lra). rewrite clampR by lra. unfold Rabs in J2. destruct (Rcase_abs (c_jtAcc c)); unfold Rmax, Rmin; repeat destruct (Rle_dec _ _); lra. }
  rewrite Jt. replace (vmult n (0 - 0)) with (mkV 0 0 : RV) by (unfold vmult; unR; apply vec_eq; cbn [vx vy]; ring). rewrite bias_zero.
  replace (vrotate n _) with (mkV 0 0 : RV) by (unfold vrotate; unR; apply vec_eq; cbn [vx vy]; ring). rewrite impulses_zero.
  rewrite <- B1, <- B3 at 2. f_equal. rewrite <- B2 at 1. destruct c; cbn in *. subst. reflexivity.
Qed.
Lemma arb_quiet arb a b : still a -> still b -> ar_surf arb = mkV 0 0 -> Forall (quiet (ar_u arb)) (ar_contacts arb) -> arb_apply_impulse arb a b = (arb, a, b).
Proof.
  intros Sa Sb Es Q. unfold arb_apply_impulse. rewrite Es.
  assert (E : forall l, Forall (quiet (ar_u arb)) l -> contacts_step (ar_n arb) (mkV 0 0) (ar_u arb) a b l = (a, b, l)).
  { induction l as [|c l IH]; intros F; cbn [contacts_step]; [reflexivity|]. inversion F; subst. rewrite contact_quiet by assumption. now rewrite IH. }
  rewrite E by exact Q. destruct arb; reflexivity.
Qed.
Lemma vclamp_id (v : RV) len : norm v <= len -> vclamp v len = v.
Proof.
  intros Hn. unfold vclamp. unR. destruct (Rltb (len * len) (vdot v v)) eqn:E; [|reflexivity]. rbool. exfalso.
  assert (D : vdot v v = norm v * norm v). { unfold norm. rewrite sqrt_sqrt; [|unfold norm2; nra]. unfold vdot, norm2. unR. ring. }
  assert (0 <= norm v) by apply sqrt_pos. rewrite D in E. nra.
Qed.
Lemma pivot_quiet p q dt a b : still a -> still b -> piv_bias q = mkV 0 0 -> norm (piv_jAcc q) <= maxForce p * dt -> pivot_apply p q dt a b = (q, a, b).
Proof.
  intros Sa Sb Eb Hn. unfold pivot_apply. rewrite (still_rel a b _ _ Sa Sb), Eb. cbv zeta.
  replace (vadd (piv_jAcc q) _) with (piv_jAcc q) by (unfold vadd, mat_transform, vsub; unR; apply vec_eq; cbn [vx vy]; ring). rewrite vclamp_id by exact Hn.
  replace (vsub (piv_jAcc q) (piv_jAcc q)) with (mkV 0 0 : RV) by (unfold vsub; unR; apply vec_eq; cbn [vx vy]; ring). rewrite impulses_zero. destruct q; cbn in *; subst; reflexivity.
Qed.

(** ** the step *)
Definition settle (b : Body R) : Body R := b_set_transform b (b_p b) (b_a b).
Lemma settle_position b dt : still b -> b_update_position b dt = settle b.
Proof.
  intros (E1 & E2 & E3 & E4).
  assert (P : vadd (b_p b) (vmult (vadd (b_v b) (b_vbias b)) dt) = b_p b) by (rewrite E1, E3; unfold vadd, vmult; unR; apply vec_eq; cbn [vx vy]; ring).
  assert (A : (b_a b + (b_w b + b_wbias b) * dt)%num = b_a b) by (rewrite E2, E4; unR; ring).
  unfold b_update_position. rewrite P. cbn [b_a b_w b_wbias upd_p upd_a b_p]. rewrite A. unfold settle. destruct b; cbn in *. subst. reflexivity.
Qed.
Lemma settle_still b : still b -> still (settle b). Proof. intros H. exact H. Qed.
Lemma settle_oriented b : oriented (settle b).
Proof. intros v. unfold settle, b_set_transform, t_vect, turn, t_transpose. cbn [b_tr b_a upd_tr ta tb tc td]. change (ncos (b_a b)) with (cos (b_a b)). change (nsin (b_a b)) with (sin (b_a b)). unR. apply vec_eq; cbn [vx vy]; ring. Qed.
Lemma settle_settle b : settle (settle b) = settle b. Proof. reflexivity. Qed.
Lemma arm_settle b v : arm (settle b) v = arm b v. Proof. reflexivity. Qed.

Lemma body_eta1 (b : Body R) v' w' : b_v b = mkV 0 0 -> b_w b = 0 -> b_f b = mkV 0 0 -> b_t b = 0 -> upd_vel (upd_force (upd_vel b v' w') vzero nzero) (mkV 0 0) 0 = b.
Proof. destruct b; cbn; intros; subst; reflexivity. Qed.
Lemma body_eta2 (b : Body R) : b_v b = mkV 0 0 -> b_w b = 0 -> upd_vel b (mkV 0 0) 0 = b.
Proof. destruct b; cbn; intros; subst; reflexivity. Qed.
Section S.
Variables (se : Settings R) (s : Scene R) (e : Event R).
Let dt := ev_dt e.
Let coef := if Req_EM_T (sc_dt s) 0 then 0 else dt / sc_dt s.
Hypothesis Nz : dt <> 0.
Hypothesis Rst : at_rest se dt coef (sc_body s) (ev_dyn e) (ev_arbs e) (ev_cons e).
Hypothesis Dyn : sc_dyn s = ev_dyn e.
Let w := sc_body s.
Definition w1 : st := fun i => if in_dec Nat.eq_dec i (ev_dyn e) then settle (w i) else w i.
Lemma w1_ok i : still (w1 i) /\ oriented (w1 i) /\ b_p (w1 i) = b_p (w i) /\ (forall v, arm (w1 i) v = arm (w i) v) /\
  b_minv (w1 i) = b_minv (w i) /\ b_iinv (w1 i) = b_iinv (w i) /\ b_type (w1 i) = b_type (w i) /\ b_f (w1 i) = b_f (w i) /\ b_t (w1 i) = b_t (w i).
Proof.
  destruct Rst as (_ & St & _). destruct (St i) as [A B]. unfold w1. fold w in A, B. destruct (in_dec Nat.eq_dec i (ev_dyn e)); [|repeat split; auto; apply A].
  split; [exact A|]. split; [apply settle_oriented|]. repeat split.
Qed.
Lemma stage1 : each_body (fun b => b_update_position b dt) (sc_dyn s) w = w1.
Proof.
  apply functional_extensionality. intros i. destruct Rst as (N & St & _). rewrite Dyn. unfold w1. destruct (in_dec Nat.eq_dec i (ev_dyn e)) as [I|I].
  - rewrite each_body_in by assumption. apply settle_position, St.
  - now rewrite each_body_out.
Qed.
Lemma arm_t i v : t_vect (b_tr (w1 i)) (vsub v (b_cog (w1 i))) = arm (w1 i) v.
Proof. destruct (w1_ok i) as (_ & O & _). rewrite O. unfold arm, vminus, vsub. unR. reflexivity. Qed.
Definition prepared : list (link (Arb R)) := map (fun '(i, k, x) => (i, k, arb_prestep x dt (se_slop se) (none_ - npow (se_bias se) dt)%num (w1 i) (w1 k))) (ev_arbs e).
Lemma step_rest : exists arbs js, step se s e = mkScene w1 (ev_dyn e) arbs js dt /\ map accumulated arbs = map accumulated (ev_arbs e) /\ arbs = prepared.
Proof.
  destruct Rst as (N & St & Fin & Imm & Ha & Hj & Bal). unfold step. fold dt. rewrite dt_nonzero by exact Nz. fold w. rewrite stage1.
  set (bias := (none_ - npow (se_bias se) dt)%num).
  rewrite (each_link_frame (prestep_arb se dt) (fun arb a b => arb_prestep arb dt (se_slop se) bias a b)) by reflexivity.
  set (arbs := map (fun '(i, k, x) => (i, k, arb_prestep x dt (se_slop se) bias (w1 i) (w1 k))) (ev_arbs e)).
  rewrite (each_link_frame (prestep_con dt) (fun c a b => fst (fst (prestep_con dt c a b)))).
  2:{ intros i k [p j] Hx. rewrite Forall_forall in Hj. specialize (Hj _ Hx). cbn in Hj. destruct Hj as [_ Hj]. destruct j; try contradiction. reflexivity. }
  set (js := map (fun '(i, k, x) => (i, k, fst (fst (prestep_con dt x (w1 i) (w1 k))))) (ev_cons e)).
  assert (Ce : (if (sc_dt s =? nzero)%num then nzero else (dt / sc_dt s)%num) = coef).
  { unfold coef. destruct (Req_EM_T (sc_dt s) 0) as [->|Ne]; [now rewrite dt_zero|now rewrite dt_nonzero]. }
  rewrite Ce.
  set (w3 := each_body _ (ev_dyn e) w1).
  (* contacts *)
  assert (Ka : forall i k x, In (i, k, x) arbs -> i <> k /\ ar_state x <> FirstCollision /\ ar_surf x = mkV 0 0 /\ Forall (quiet (ar_u x)) (ar_contacts x)).
  { intros i k x Hx. unfold arbs in Hx. apply in_map_iff in Hx as ([[i' k'] x'] & E & Hx). injection E as <- <- <-. rewrite Forall_forall in Ha. specialize (Ha _ Hx). cbn in Ha. destruct Ha as (H1 & H2 & H3 & H4).
    split; [exact H1|]. split; [exact H2|]. split; [exact H3|]. unfold arb_prestep, arb_with. cbn [ar_contacts ar_u]. apply Forall_map. eapply Forall_impl; [|exact H4]. cbv beta. intros c (J1 & J2 & J3).
    unfold quiet, con_prestep. cbn [c_jnAcc c_jtAcc c_bias c_bounce c_jBias]. split; [exact J1|]. split; [exact J2|].
    destruct (w1_ok i') as (S1 & _ & P1 & _). destruct (w1_ok k') as (S2 & _ & P2 & _).
    split; [|split; [|reflexivity]].
    - change (nzero : R) with 0. rewrite P1, P2. unR.
      replace (vdot (vadd (vsub (c_r2 c) (c_r1 c)) (vsub (b_p (w k')) (b_p (w i')))) (ar_n x')) with (inner (vminus (vplus (b_p (w k')) (c_r2 c)) (vplus (b_p (w i')) (c_r1 c))) (ar_n x'))
        by (unfold inner, vminus, vplus, vdot, vadd, vsub; unR; cbn [vx vy]; ring).
      rewrite Rmin_left by (fold w in J3; lra). unfold Rdiv. ring.
    - unfold normal_relative_velocity. rewrite (still_rel _ _ _ _ S1 S2). unfold vdot. unR. cbn [vx vy]. ring. }
  assert (Pa : contact_pushes arbs = contact_pushes (ev_arbs e)).
  { unfold arbs, contact_pushes. clear. induction (ev_arbs e) as [|[[i k] x] l IH]; cbn [map flat_map]; [reflexivity|]. rewrite IH. f_equal.
    unfold arb_prestep, arb_with. cbn [ar_contacts ar_n]. rewrite map_map. apply map_ext. intros c. reflexivity. }
  (* joints *)
  assert (Kj : Forall (has_arms w) js /\ forall i k x, In (i, k, x) js -> forall a b, still a -> still b -> solve_con dt x a b = (x, a, b)).
  { split.
    - unfold js. apply Forall_map. rewrite Forall_forall in *. intros [[i k] [p j]] Hx. specialize (Hj _ Hx). cbn in Hj. destruct Hj as [Ne Hj]. destruct j as [|q| | | | | | | |]; try contradiction.
      cbn. split; [exact Ne|]. rewrite !arm_t. destruct (w1_ok i) as (_ & _ & _ & A1 & _). destruct (w1_ok k) as (_ & _ & _ & A2 & _). now rewrite A1, A2.
    - intros i k x Hx a b Sa Sb. unfold js in Hx. apply in_map_iff in Hx as ([[i' k'] [p j]] & E & Hx). injection E as <- <- <-. rewrite Forall_forall in Hj. specialize (Hj _ Hx). cbn in Hj. destruct Hj as [Ne Hj].
      destruct j as [|q| | | | | | | |]; try contradiction. destruct Hj as (E & Hn & Hb). cbn [prestep_con j_prestep fst]. unfold solve_con. cbn [j_apply]. rewrite pivot_quiet; try assumption; [reflexivity|].
      unfold pivot_prestep. cbn [piv_bias]. rewrite !arm_t.
      destruct (w1_ok i') as (_ & _ & P1 & A1 & _). destruct (w1_ok k') as (_ & _ & P2 & A2 & _). rewrite A1, A2, P1, P2. fold w in E.
      replace (vmult _ _) with (mkV 0 0 : RV).
      + apply vclamp_id. unfold norm, norm2. cbn [vx vy]. replace (0 * 0 + 0 * 0) with 0 by ring. rewrite sqrt_0. exact Hb.
      + pose proof (f_equal vx E) as X. pose proof (f_equal vy E) as Y. unfold vplus in X, Y. cbn [vx vy] in X, Y. unfold vmult, vsub, vadd. unR. apply vec_eq; cbn [vx vy]; [rewrite X|rewrite Y]; ring. }
  destruct Kj as [Ka2 Kj].
  assert (Pj : pivot_pushes w js = pivot_pushes w (ev_cons e)).
  { unfold js, pivot_pushes. clear -Hj. induction (ev_cons e) as [|[[i k] [p j]] l IH]; cbn [map flat_map]; [reflexivity|]. inversion Hj as [|? ? Hh Hr]; subst. cbv beta iota delta [holding_joint] in Hh. destruct Hh as [_ Hq]. rewrite IH by exact Hr. f_equal.
    destruct j as [|q| | | | | | | |]; try contradiction. reflexivity. }
  (* cached impulses *)
  pose proof (kick_arbs coef arbs w3 (fun i k x H => conj (proj1 (Ka i k x H)) (proj1 (proj2 (Ka i k x H))))) as K1.
  destruct (each_link (cached_arb coef) arbs w3) as [w4 l4]. cbn [fst] in K1. subst w4.
  pose proof (kick_cons coef w js (kick coef (contact_pushes arbs) w3) Ka2) as K2.
  destruct (each_link (cached_con coef) js (kick coef (contact_pushes arbs) w3)) as [w5 l5]. cbn [fst] in K2. subst w5.
  rewrite Pa, Pj, kick_app.
  assert (K3 : kick coef (contact_pushes (ev_arbs e) ++ pivot_pushes w (ev_cons e)) w3 = w1).
  { apply functional_extensionality. intros i. unfold kick. cbv zeta in Bal. fold w in Bal, Fin, Imm. destruct (w1_ok i) as ((V0 & W0 & _) & _ & _ & _ & M1 & M2 & Ty & F1 & T1).
    set (P := contact_pushes (ev_arbs e) ++ pivot_pushes w (ev_cons e)) in *. unfold w3. destruct (in_dec Nat.eq_dec i (ev_dyn e)) as [I|I].
    - rewrite each_body_in by assumption. destruct (Bal i I) as [B1 B2]. destruct (Fin i I) as ((Hm & Hi & Em & Ei) & Tyi & Fi & Ti).
      assert (Kin : is_kinematic (w1 i) = false) by (unfold is_kinematic; now rewrite Ty, Tyi). unfold b_update_velocity. rewrite Kin. cbn [b_v b_w b_minv b_iinv upd_force upd_vel].
      rewrite B2. rewrite V0, W0, F1, T1, Fi, Ti, M1, Em.
      match goal with |- upd_vel _ ?v ?om = _ => replace v with (mkV 0 0 : RV); [replace om with 0|] end.
      + apply body_eta1; congruence.
      + unR. ring.
      + unfold vplus, vscale in B1 |- *. injection B1 as X Y. unfold vadd, vmult. unR. apply vec_eq; cbn [vx vy].
        * apply (Rmult_eq_reg_l (b_m (w i))); [|lra]. transitivity (b_m (w i) * dt * vx (se_gravity se) + coef * vx (impulse_on P i)); [lra|]. field. lra.
        * apply (Rmult_eq_reg_l (b_m (w i))); [|lra]. transitivity (b_m (w i) * dt * vy (se_gravity se) + coef * vy (impulse_on P i)); [lra|]. field. lra.
    - rewrite each_body_out by assumption. destruct (Imm i I) as [Mi Ii]. rewrite M1, M2, Mi, Ii, V0, W0.
      match goal with |- upd_vel _ ?v ?om = _ => replace v with (mkV 0 0 : RV); [replace om with 0|] end.
      + apply body_eta2; congruence.
      + ring.
      + unfold vplus, vscale. apply vec_eq; cbn [vx vy]; ring. }
  rewrite K3. rewrite iterate_id.
  - exists arbs, js. split; [reflexivity|]. split; [|reflexivity]. unfold arbs. rewrite map_map. apply map_ext. intros [[i k] x]. unfold accumulated, arb_prestep, arb_with. cbn [snd ar_contacts]. rewrite map_map. apply map_ext. reflexivity.
  - intros i k x Hx. destruct (Ka i k x Hx) as (_ & _ & E1 & E2). apply arb_quiet; try assumption; apply w1_ok.
  - intros i k x Hx. apply (Kj i k x Hx); apply w1_ok.
Qed.
End S.
(** the places are the same, so what was at rest stays at rest *)
Definition resettled (w w' : st) : Prop := forall i, w' i = w i \/ w' i = settle (w i).
Lemma resettled_facts w w' i : resettled w w' -> b_p (w' i) = b_p (w i) /\ b_a (w' i) = b_a (w i) /\ (forall v, arm (w' i) v = arm (w i) v) /\ (still (w i) -> still (w' i)) /\ (oriented (w i) -> oriented (w' i)) /\
  (finite_mass (w i) -> finite_mass (w' i)) /\ (immovable (w i) -> immovable (w' i)) /\ b_type (w' i) = b_type (w i) /\ b_f (w' i) = b_f (w i) /\ b_t (w' i) = b_t (w i) /\ b_m (w' i) = b_m (w i).
Proof.
  intros Rs. destruct (Rs i) as [E|E]; rewrite E.
  - do 3 (split; [reflexivity|]). do 4 (split; [exact (fun H => H)|]). repeat split.
  - do 3 (split; [reflexivity|]). split; [exact (fun H => H)|]. split; [intros _; apply settle_oriented|]. do 2 (split; [exact (fun H => H)|]). repeat split.
Qed.
Lemma at_rest_resettled se dt coef w w' dyn arbs js : resettled w w' -> at_rest se dt coef w dyn arbs js -> at_rest se dt coef w' dyn arbs js.
Proof.
  intros Rs (N & St & Fin & Imm & Ha & Hj & Bal). pose proof (fun i => resettled_facts w w' i Rs) as F.
  split; [exact N|]. split; [intros i; destruct (St i), (F i) as (_ & _ & _ & F4 & F5 & _); auto|].
  split. { intros i Hi. destruct (Fin i Hi) as (A1 & A2 & A3 & A4). destruct (F i) as (_ & _ & _ & _ & _ & F6 & _ & F8 & F9 & F10 & _). rewrite F8, F9, F10. auto. }
  split. { intros i Hi. destruct (F i) as (_ & _ & _ & _ & _ & _ & F7 & _). auto. }
  split. { eapply Forall_impl; [|exact Ha]. intros [[i k] x]. unfold holding_contact. destruct (F i) as (-> & _). destruct (F k) as (-> & _). auto. }
  split. { eapply Forall_impl; [|exact Hj]. intros [[i k] [p j]]. unfold holding_joint. destruct (F i) as (-> & _ & A1 & _). destruct (F k) as (-> & _ & A2 & _). intros [Ne Hq]. split; [exact Ne|]. destruct j; try contradiction. rewrite A1, A2. exact Hq. }
  cbv zeta. assert (E : pivot_pushes w' js = pivot_pushes w js).
  { unfold pivot_pushes. apply flat_map_ext. intros [[i k] [p j]]. destruct j; try reflexivity. destruct (F i) as (_ & _ & A1 & _). destruct (F k) as (_ & _ & A2 & _). now rewrite A1, A2. }
  rewrite E. intros i Hi. destruct (F i) as (_ & _ & _ & _ & _ & _ & _ & _ & _ & _ & ->). apply Bal, Hi.
Qed.
Lemma steps_rest se dt evs : forall s : Scene R, dt <> 0 -> sc_dt s = dt ->
  Forall (fun e => ev_dt e = dt /\ ev_dyn e = sc_dyn s /\ at_rest se dt 1 (sc_body s) (sc_dyn s) (ev_arbs e) (ev_cons e)) evs ->
  resettled (sc_body s) (sc_body (steps se s evs)).
Proof.
  unfold steps. induction evs as [|e evs IH]; intros s Nz Ed F; cbn [fold_left]; [intros i; now left|]. pose proof (Forall_inv F) as (E1 & E2 & Rs). pose proof (Forall_inv_tail F) as Fr.
  destruct (step_rest se s e) as (arbs & js & Es & _); [now rewrite E1| |now rewrite E2|].
  { rewrite E1, E2. destruct (Req_EM_T (sc_dt s) 0) as [Z|_]; [congruence|]. rewrite Ed. replace (dt / dt) with 1 by (field; exact Nz). exact Rs. }
  assert (R1 : resettled (sc_body s) (sc_body (step se s e))).
  { rewrite Es. cbn [sc_body]. intros i. unfold w1. destruct (in_dec _ _ _); [now right|now left]. }
  assert (D1 : sc_dyn (step se s e) = sc_dyn s) by (rewrite Es; exact E2).
  assert (T1 : sc_dt (step se s e) = dt) by (rewrite Es; exact E1).
  intros i. pose proof (IH (step se s e) Nz T1) as K. rewrite D1 in K. specialize (K ltac:(eapply Forall_impl; [|exact Fr]; cbv beta; intros x (X1 & X2 & X3); refine (conj X1 (conj X2 _)); eapply at_rest_resettled; [exact R1|exact X3]) i).
  destruct K as [K|K]; rewrite K; destruct (R1 i) as [J|J]; rewrite J; auto.
Qed.
