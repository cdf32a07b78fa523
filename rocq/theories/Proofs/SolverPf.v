From Coq Require Import Reals ZArith Bool List Lra Lia Permutation.
From Verif Require Import Num Spec SpecBody SpecSolver.
From Verif.Model Require Import Vector BB Transform Body Solver.
From Verif.Proofs Require Import RTac Geom BodyPf.
Import ListNotations.
Local Open Scope R_scope.

(** ** Conservation *)
Definition same_frame (a a' : Body R) : Prop :=
  b_m a' = b_m a /\ b_minv a' = b_minv a /\ b_i a' = b_i a /\ b_iinv a' = b_iinv a /\ b_p a' = b_p a /\
  b_cog a' = b_cog a /\ b_a a' = b_a a /\ b_tr a' = b_tr a.
Lemma same_frame_refl a : same_frame a a. Proof. unfold same_frame; auto 10. Qed.
Lemma same_frame_trans a b c : same_frame a b -> same_frame b c -> same_frame a c.
Proof.
  unfold same_frame. intros (? & ? & ? & ? & ? & ? & ? & ?) (? & ? & ? & ? & ? & ? & ? & ?).
  repeat split; congruence.
Qed.
Definition mom2 (a b : Body R) : RV := vplus (vscale (b_m a) (b_v a)) (vscale (b_m b) (b_v b)).
Definition ang1 (a : Body R) : R := b_i a * b_w a + b_m a * crossR (b_p a) (b_v a).
Lemma unmoved_refl a : unmoved a a. Proof. unfold unmoved; auto. Qed.
Lemma unmoved_trans a b c : unmoved a b -> unmoved b c -> unmoved a c.
Proof. unfold unmoved. intros (? & ? & ? & ?) (? & ? & ? & ?). repeat split; congruence. Qed.

Definition conserves (a b a' b' : Body R) : Prop :=
  same_frame a a' /\ same_frame b b' /\
  (finite_mass a -> finite_mass b -> mom2 a' b' = mom2 a b) /\
  (immovable a -> unmoved a a') /\ (immovable b -> unmoved b b').
Definition ang_conserves (a b a' b' : Body R) : Prop :=
  finite_mass a -> finite_mass b -> ang1 a' + ang1 b' = ang1 a + ang1 b.
Lemma finite_frame a a' : same_frame a a' -> finite_mass a -> finite_mass a'.
Proof. unfold same_frame, finite_mass. intros (-> & -> & -> & -> & _). auto. Qed.
Lemma immovable_frame a a' : same_frame a a' -> immovable a -> immovable a'.
Proof. unfold same_frame, immovable. intros (_ & -> & _ & -> & _). auto. Qed.
Lemma conserves_refl a b : conserves a b a b.
Proof. unfold conserves. auto using same_frame_refl, unmoved_refl. Qed.
Lemma conserves_trans a b c d e f : conserves a b c d -> conserves c d e f -> conserves a b e f.
Proof.
  intros (A1 & A2 & A3 & A4 & A5) (B1 & B2 & B3 & B4 & B5). unfold conserves.
  repeat match goal with |- _ /\ _ => split end.
  - eapply same_frame_trans; eauto.
  - eapply same_frame_trans; eauto.
  - intros. rewrite B3, A3; eauto using finite_frame.
  - intros. eapply unmoved_trans; eauto using immovable_frame.
  - intros. eapply unmoved_trans; eauto using immovable_frame.
Qed.
Lemma ang_trans a b c d e f : conserves a b c d -> ang_conserves a b c d -> ang_conserves c d e f -> ang_conserves a b e f.
Proof. intros (A1 & A2 & _) H1 H2 Fa Fb. rewrite H2, H1; eauto using finite_frame. Qed.

Definition gap (a b : Body R) (r1 r2 : RV) : RV := vminus (vplus (b_p b) r2) (vplus (b_p a) r1).
Lemma apply_impulses_kicked a b r1 r2 J : let '(a', b') := apply_impulses a b r1 r2 J in
  kicked a a' (vscale (-1) J) (crossR r1 (vscale (-1) J)) /\ kicked b b' J (crossR r2 J).
Proof.
  unfold apply_impulses, kicked, crossR, vscale; unR; cbn [vx vy]. split; f_equal; try (f_equal; ring); ring.
Qed.
Lemma apply_impulses_conserves a b r1 r2 J : let '(a', b') := apply_impulses a b r1 r2 J in conserves a b a' b'.
Proof.
  unfold apply_impulses, conserves, same_frame. ub. repeat match goal with |- _ /\ _ => split end; auto.
  - intros (Ma & Ia & Ea & _) (Mb & Ib & Eb & _). unfold mom2. ub. unR. rewrite Ea, Eb. unfold vplus, vscale.
    apply vec_eq; cbn [vx vy]; field; lra.
  - intros (Ea & Eb). unfold unmoved. ub. unR. rewrite Ea, Eb. repeat split; try ring. apply vec_eq; cbn [vx vy]; ring.
  - intros (Ea & Eb). unfold unmoved. ub. unR. rewrite Ea, Eb. repeat split; try ring. apply vec_eq; cbn [vx vy]; ring.
Qed.
(** the angular momentum changes by the gap times the impulse *)
Lemma apply_impulses_ang a b r1 r2 J : let '(a', b') := apply_impulses a b r1 r2 J in
  finite_mass a -> finite_mass b ->
  ang1 a' + ang1 b' = ang1 a + ang1 b + crossR (gap a b r1 r2) J.
Proof.
  unfold apply_impulses. intros (Ma & Ia & Ea & Ea') (Mb & Ib & Eb & Eb').
  unfold ang1, crossR, gap, vminus, vplus. ub. unR. rewrite Ea, Eb, Ea', Eb'. field. lra.
Qed.
Lemma apply_impulses_ang0 a b r1 r2 J : crossR (gap a b r1 r2) J = 0 -> let '(a', b') := apply_impulses a b r1 r2 J in ang_conserves a b a' b'.
Proof.
  intros Hg. pose proof (apply_impulses_ang a b r1 r2 J) as H. destruct (apply_impulses a b r1 r2 J) as [a' b'].
  intros Fa Fb. rewrite (H Fa Fb), Hg. ring.
Qed.
Lemma same_point_gap a b r1 r2 J : same_point a b r1 r2 -> crossR (gap a b r1 r2) J = 0.
Proof. unfold same_point, gap. intros E. rewrite E. unfold crossR, vminus; cbn [vx vy]. ring. Qed.
Lemma in_line_gap a b r1 r2 n k : in_line a b r1 r2 n -> crossR (gap a b r1 r2) (vmult n k) = 0.
Proof.
  unfold in_line, gap, crossR, vmult; unR; cbn [vx vy]. intros H. 
  match goal with |- ?u * (vx n * k) - ?v * (vy n * 0 + _) = 0 => idtac | |- ?l = 0 => replace l with ((vx (vminus (vplus (b_p b) r2) (vplus (b_p a) r1)) * vy n - vy (vminus (vplus (b_p b) r2) (vplus (b_p a) r1)) * vx n) * k) by ring end.
  rewrite H. ring.
Qed.
Lemma bias_conserves a b r1 r2 J : let '(a', b') := apply_bias_impulses a b r1 r2 J in conserves a b a' b' /\ ang_conserves a b a' b'.
Proof.
  unfold apply_bias_impulses, conserves, ang_conserves, same_frame. ub. repeat match goal with |- _ /\ _ => split end; auto;
  try (intros (Ea & Eb); unfold unmoved; ub; unR; rewrite Ea, Eb; repeat split; try ring; apply vec_eq; cbn [vx vy]; ring).
Qed.
Lemma spin_conserves a b j : let '(a', b') := spin a b j in conserves a b a' b' /\ ang_conserves a b a' b'.
Proof.
  unfold spin, conserves, ang_conserves, same_frame. ub. repeat match goal with |- _ /\ _ => split end; auto.
  - intros (Ea & Eb); unfold unmoved; ub; unR; rewrite Eb; repeat split; ring.
  - intros (Ea & Eb); unfold unmoved; ub; unR; rewrite Eb; repeat split; ring.
  - intros (Ma & Ia & Ea & Ea') (Mb & Ib & Eb & Eb'). unfold ang1. ub; unR. rewrite Ea', Eb'. field. lra.
Qed.
Lemma unspin_conserves a b j : let '(a', b') := unspin a b j in conserves a b a' b' /\ ang_conserves a b a' b'.
Proof.
  unfold unspin, conserves, ang_conserves, same_frame. ub. repeat match goal with |- _ /\ _ => split end; auto.
  - intros (Ea & Eb); unfold unmoved; ub; unR; rewrite Eb; repeat split; ring.
  - intros (Ea & Eb); unfold unmoved; ub; unR; rewrite Eb; repeat split; ring.
  - intros (Ma & Ia & Ea & Ea') (Mb & Ib & Eb & Eb'). unfold ang1. ub; unR. rewrite Ea', Eb'. field. lra.
Qed.
Lemma gear_conserves a b j ri : let '(a', b') := gear_spin a b j ri in conserves a b a' b' /\ (ri = 1 -> ang_conserves a b a' b').
Proof.
  unfold gear_spin, conserves, ang_conserves, same_frame. ub. repeat match goal with |- _ /\ _ => split end; auto.
  - intros (Ea & Eb); unfold unmoved; ub; unR; rewrite Eb; repeat split; ring.
  - intros (Ea & Eb); unfold unmoved; ub; unR; rewrite Eb; repeat split; ring.
  - intros -> (Ma & Ia & Ea & Ea') (Mb & Ib & Eb & Eb'). unfold ang1. ub; unR. rewrite Ea', Eb'. field. lra.
Qed.
Lemma same_point_frame a b a' b' r1 r2 : same_frame a a' -> same_frame b b' -> same_point a b r1 r2 -> same_point a' b' r1 r2.
Proof. unfold same_frame, same_point. intros (_ & _ & _ & _ & -> & _) (_ & _ & _ & _ & -> & _). auto. Qed.

Lemma contact_step_conserves n surf u a b c : let '(a', b', c') := contact_step n surf u a b c in
  conserves a b a' b' /\ (same_point a b (c_r1 c) (c_r2 c) -> ang_conserves a b a' b').
Proof.
  unfold contact_step. cbv zeta.
  match goal with |- context [apply_bias_impulses a b ?r1 ?r2 ?J] => pose proof (bias_conserves a b r1 r2 J) as HB; destruct (apply_bias_impulses a b r1 r2 J) as [a1 b1] end.
  match goal with |- context [apply_impulses a1 b1 ?r1 ?r2 ?J] => pose proof (apply_impulses_conserves a1 b1 r1 r2 J) as HI;
    pose proof (apply_impulses_ang0 a1 b1 r1 r2 J) as HA; destruct (apply_impulses a1 b1 r1 r2 J) as [a2 b2] end.
  destruct HB as [HB HB']. split; [eapply conserves_trans; eauto|].
  intros Hp. eapply ang_trans; eauto. apply HA, same_point_gap. destruct HB as (F1 & F2 & _). eapply same_point_frame; eauto.
Qed.
Lemma contacts_step_conserves n surf u l : forall a b, let '(a', b', l') := contacts_step n surf u a b l in
  conserves a b a' b' /\ (Forall (fun c => same_point a b (c_r1 c) (c_r2 c)) l -> ang_conserves a b a' b').
Proof.
  induction l as [|c l IH]; intros a b; cbn [contacts_step].
  - split; [apply conserves_refl|]. intros _ ? ?; reflexivity.
  - pose proof (contact_step_conserves n surf u a b c) as H1. destruct (contact_step n surf u a b c) as [[a1 b1] c1].
    specialize (IH a1 b1). destruct (contacts_step n surf u a1 b1 l) as [[a2 b2] l2]. destruct H1 as [H1 H1'], IH as [H2 H2'].
    split; [eapply conserves_trans; eauto|]. intros HF. inversion HF; subst. eapply ang_trans; eauto. apply H2'.
    destruct H1 as (F1 & F2 & _). eapply Forall_impl; [|eassumption]. intros; eapply same_point_frame; eauto.
Qed.
Lemma cached_fold_conserves n k l : forall a b,
  let '(a', b') := fold_left (fun '(a, b) con => let j := vrotate n (mkV (c_jnAcc con) (c_jtAcc con)) in
           apply_impulses a b (c_r1 con) (c_r2 con) (vmult j k)) l (a, b) in
  conserves a b a' b' /\ (Forall (fun c => same_point a b (c_r1 c) (c_r2 c)) l -> ang_conserves a b a' b').
Proof.
  induction l as [|c l IH]; intros a b; cbn [fold_left].
  - split; [apply conserves_refl|]. intros _ ? ?; reflexivity.
  - cbv zeta. match goal with |- context [apply_impulses a b ?r1 ?r2 ?J] => pose proof (apply_impulses_conserves a b r1 r2 J) as HI;
      pose proof (apply_impulses_ang0 a b r1 r2 J) as HA; destruct (apply_impulses a b r1 r2 J) as [a1 b1] end.
    specialize (IH a1 b1). cbv zeta in IH.
    match goal with |- context [fold_left ?f l (a1, b1)] => destruct (fold_left f l (a1, b1)) as [a2 b2] end.
    destruct IH as [H2 H2']. split; [eapply conserves_trans; eauto|].
    intros HF. inversion HF; subst. eapply ang_trans; eauto.
    + apply HA, same_point_gap; assumption.
    + apply H2'. destruct HI as (F1 & F2 & _). eapply Forall_impl; [|eassumption]. intros; eapply same_point_frame; eauto.
Qed.

Definition goodact (a b : Body R) (x : action) (r : Body R * Body R) : Prop :=
  let '(a', b') := r in conserves a b a' b' /\ (central a b x -> ang_conserves a b a' b').
Lemma delta_in_line a b r1 r2 k : in_line a b r1 r2 (vmult (vsub (vadd (b_p b) r2) (vadd (b_p a) r1)) k).
Proof. unfold in_line, crossR, vminus, vplus, vmult, vsub, vadd; unR; cbn [vx vy]. ring. Qed.
Lemma in_line_impulse a b r1 r2 n k : in_line a b r1 r2 n ->
  let '(a', b') := apply_impulses a b r1 r2 (vmult n k) in conserves a b a' b' /\ ang_conserves a b a' b'.
Proof.
  intros H. pose proof (apply_impulses_conserves a b r1 r2 (vmult n k)) as HI.
  pose proof (apply_impulses_ang0 a b r1 r2 (vmult n k) (in_line_gap _ _ _ _ _ _ H)) as HA.
  destruct (apply_impulses a b r1 r2 (vmult n k)). auto.
Qed.
Ltac imp a b x HC := match goal with |- context [apply_impulses a b ?r1 ?r2 ?J] =>
   let HI := fresh "HI" in let HA := fresh "HA" in
   pose proof (apply_impulses_conserves a b r1 r2 J) as HI; pose proof (apply_impulses_ang0 a b r1 r2 J) as HA;
   destruct (apply_impulses a b r1 r2 J) as [? ?]; split; [exact HI|intros HC; apply HA] end.
Lemma act_good x a b : goodact a b x (act x a b).
Proof.
  unfold goodact. destruct x as [arb|arb k|p j dt|j k|p j dt]; cbn [act].
  - unfold arb_apply_impulse. pose proof (contacts_step_conserves (ar_n arb) (ar_surf arb) (ar_u arb) (ar_contacts arb) a b) as H.
    destruct (contacts_step _ _ _ a b _) as [[a' b'] l']. exact H.
  - unfold arb_apply_cached. destruct (ar_state arb);
    try (split; [apply conserves_refl|intros _ ? ?; reflexivity]);
    match goal with |- context [fold_left ?f ?l (a, b)] => pose proof (cached_fold_conserves (ar_n arb) k l a b) as H; exact H end.
  - destruct j as [j|j|j|j|j|j|j|j|j|j]; cbn [j_prestep]; try (split; [apply conserves_refl|intros _ ? ?; reflexivity]).
    + unfold spring_prestep. cbv zeta.
      set (r1 := t_vect (b_tr a) (vsub (sp_A j) (b_cog a))). set (r2 := t_vect (b_tr b) (vsub (sp_B j) (b_cog b))).
      match goal with |- context [apply_impulses a b r1 r2 (vmult ?N ?J)] => set (n := N); set (jj := J) end.
      assert (HL : in_line a b r1 r2 n) by (unfold n; destruct (negb _); apply delta_in_line).
      pose proof (in_line_impulse a b r1 r2 n jj HL) as H. destruct (apply_impulses a b r1 r2 (vmult n jj)) as [a' b'].
      destruct H; auto.
    + unfold rspring_prestep. cbv zeta. match goal with |- context [spin a b ?J] => pose proof (spin_conserves a b J) as H; destruct (spin a b J) as [a' b'] end.
      destruct H; auto.
  - destruct j as [j|j|j|j|j|j|j|j|j|j]; cbn [j_cached central].
    + imp a b x HC. apply in_line_gap, HC.
    + imp a b x HC. apply same_point_gap, HC.
    + imp a b x HC. apply in_line_gap, HC.
    + imp a b x HC. apply same_point_gap, HC.
    + match goal with |- context [gear_spin a b ?J ?K] => pose proof (gear_conserves a b J K) as H; destruct (gear_spin a b J K) as [a' b'] end. exact H.
    + match goal with |- context [spin a b ?J] => pose proof (spin_conserves a b J) as H; destruct (spin a b J) as [a' b'] end. destruct H; auto.
    + match goal with |- context [spin a b ?J] => pose proof (spin_conserves a b J) as H; destruct (spin a b J) as [a' b'] end. destruct H; auto.
    + match goal with |- context [spin a b ?J] => pose proof (spin_conserves a b J) as H; destruct (spin a b J) as [a' b'] end. destruct H; auto.
    + split; [apply conserves_refl|intros _ ? ?; reflexivity].
    + split; [apply conserves_refl|intros _ ? ?; reflexivity].
  - destruct j as [j|j|j|j|j|j|j|j|j|j]; cbn [j_apply central].
    + unfold pin_apply. cbv zeta. imp a b x HC. apply in_line_gap, HC.
    + unfold pivot_apply. cbv zeta. imp a b x HC. apply same_point_gap, HC.
    + unfold slide_apply. destruct (vequal (sl_n j) vzero); [split; [apply conserves_refl|intros _ ? ?; reflexivity]|].
      cbv zeta. imp a b x HC. apply in_line_gap, HC.
    + unfold groove_apply. cbv zeta. imp a b x HC. apply same_point_gap, HC.
    + unfold gear_apply. cbv zeta. match goal with |- context [gear_spin a b ?J ?K] => pose proof (gear_conserves a b J K) as H; destruct (gear_spin a b J K) as [a' b'] end. exact H.
    + unfold ratchet_apply. destruct (ra_bias j =? nzero)%num; [split; [apply conserves_refl|intros _ ? ?; reflexivity]|]. cbv zeta.
      match goal with |- context [spin a b ?J] => pose proof (spin_conserves a b J) as H; destruct (spin a b J) as [a' b'] end. destruct H; auto.
    + unfold rotary_apply. destruct (ro_bias j =? nzero)%num; [split; [apply conserves_refl|intros _ ? ?; reflexivity]|]. cbv zeta.
      match goal with |- context [spin a b ?J] => pose proof (spin_conserves a b J) as H; destruct (spin a b J) as [a' b'] end. destruct H; auto.
    + unfold motor_apply. cbv zeta.
      match goal with |- context [spin a b ?J] => pose proof (spin_conserves a b J) as H; destruct (spin a b J) as [a' b'] end. destruct H; auto.
    + unfold spring_apply. cbv zeta. imp a b x HC. apply in_line_gap, HC.
    + unfold rspring_apply. cbv zeta.
      match goal with |- context [unspin a b ?J] => pose proof (unspin_conserves a b J) as H; destruct (unspin a b J) as [a' b'] end. destruct H; auto.
Qed.

(** *** whole worlds *)
Lemma set_same w i b : set_body w i b i = b.
Proof. unfold set_body. now rewrite Nat.eqb_refl. Qed.
Lemma set_other w i b k : k <> i -> set_body w i b k = w k.
Proof. unfold set_body. intros. apply Nat.eqb_neq in H. now rewrite H. Qed.
Lemma momentum_ext w w' ids : (forall i, In i ids -> w i = w' i) -> momentum w ids = momentum w' ids.
Proof. induction ids; intros H; cbn; auto. rewrite (H a) by (left; auto). rewrite IHids; auto. intros; apply H; right; auto. Qed.
Lemma ang_ext w w' ids : (forall i, In i ids -> w i = w' i) -> angular_momentum w ids = angular_momentum w' ids.
Proof. induction ids; intros H; cbn; auto. rewrite (H a) by (left; auto). rewrite IHids; auto. intros; apply H; right; auto. Qed.
Lemma vplus_comm a b : vplus a b = vplus b a.
Proof. unfold vplus. apply vec_eq; cbn; ring. Qed.
Lemma vplus_assoc a b c : vplus a (vplus b c) = vplus (vplus a b) c.
Proof. unfold vplus. apply vec_eq; cbn; ring. Qed.
Lemma momentum_perm w l l' : Permutation l l' -> momentum w l = momentum w l'.
Proof.
  induction 1; cbn; auto; try congruence.
  rewrite !vplus_assoc. f_equal. apply vplus_comm.
Qed.
Lemma ang_perm w l l' : Permutation l l' -> angular_momentum w l = angular_momentum w l'.
Proof. induction 1; cbn; lra. Qed.
Lemma split2 (i k : nat) ids : NoDup ids -> In i ids -> In k ids -> i <> k ->
  exists rest, Permutation ids (i :: k :: rest) /\ ~ In i rest /\ ~ In k rest.
Proof.
  intros ND Hi Hk Hne. apply in_split in Hi as (l1 & l2 & ->).
  assert (Hk' : In k (l1 ++ l2)). { apply in_app_or in Hk as [|[|]]; try (subst; contradiction); apply in_or_app; auto. }
  apply in_split in Hk' as (m1 & m2 & E).
  assert (P : Permutation (l1 ++ i :: l2) (i :: k :: m1 ++ m2)).
  { eapply Permutation_trans; [apply Permutation_sym, Permutation_middle|]. apply perm_skip. rewrite E. apply Permutation_sym, Permutation_middle. }
  exists (m1 ++ m2). split; [exact P|].
  pose proof (Permutation_NoDup P ND) as ND'. inversion ND' as [|? ? N1 N2]; subst. inversion N2; subst. split; auto.
  intro; apply N1; right; auto.
Qed.
Lemma act_on_step w ids t : world_ok w ids -> act_ok ids t ->
  world_ok (act_on w t) ids /\ momentum (act_on w t) ids = momentum w ids /\
  (let '(i, k, x) := t in central (w i) (w k) x -> angular_momentum (act_on w t) ids = angular_momentum w ids) /\
  (forall i, same_frame (w i) (act_on w t i)).
Proof.
  destruct t as [[i k] x]. intros [ND HF] (Hne & Hi & Hk). cbn [act_on].
  pose proof (act_good x (w i) (w k)) as G. unfold goodact in G. destruct (act x (w i) (w k)) as [a b].
  destruct G as [(F1 & F2 & G & _) GA].
  set (w' := set_body (set_body w i a) k b).
  assert (Wi : w' i = a) by (unfold w'; rewrite set_other, set_same; auto).
  assert (Wk : w' k = b) by (unfold w'; rewrite set_same; auto).
  assert (Wo : forall l, l <> i -> l <> k -> w' l = w l) by (intros; unfold w'; rewrite !set_other; auto).
  destruct (split2 i k ids ND Hi Hk Hne) as (rest & P & N1 & N2).
  assert (SF : forall l, same_frame (w l) (w' l)).
  { intros l. destruct (Nat.eq_dec l i) as [->|]; [rewrite Wi; auto|]. destruct (Nat.eq_dec l k) as [->|]; [rewrite Wk; auto|].
    rewrite Wo by auto. apply same_frame_refl. }
  repeat match goal with |- _ /\ _ => split end; auto.
  - split; [exact ND|]. intros l Hl. eapply finite_frame; [apply SF|auto].
  - rewrite !(momentum_perm _ _ _ P). cbn [momentum]. rewrite Wi, Wk.
    rewrite (momentum_ext w' w rest). 2:{ intros l Hl. apply Wo; intros ->; contradiction. }
    rewrite !vplus_assoc. f_equal. apply G; auto.
  - intros C. specialize (GA C (HF i Hi) (HF k Hk)). rewrite !(ang_perm _ _ _ P). cbn [angular_momentum]. rewrite Wi, Wk.
    rewrite (ang_ext w' w rest). 2:{ intros l Hl. apply Wo; intros ->; contradiction. }
    unfold ang1 in GA. lra.
Qed.
Lemma acts_momentum l : forall w ids, world_ok w ids -> Forall (act_ok ids) l -> momentum (acts w l) ids = momentum w ids.
Proof.
  induction l as [|t l IH]; intros w ids Hw Hl; cbn; auto. inversion Hl; subst.
  destruct (act_on_step w ids t Hw H1) as (W & M & _). unfold acts in IH. rewrite IH; auto.
Qed.
Lemma acts_angular l : forall w ids, world_ok w ids -> Forall (act_ok ids) l -> all_central w l ->
  angular_momentum (acts w l) ids = angular_momentum w ids.
Proof.
  induction l as [|t l IH]; intros w ids Hw Hl Hc; cbn; auto. inversion Hl; subst. destruct t as [[i k] x]. destruct Hc as [C Hc].
  destruct (act_on_step w ids (i, k, x) Hw H1) as (W & _ & A & _). unfold acts in IH. rewrite IH; auto.
Qed.
Lemma act_immovable w t k : immovable (w k) -> (let '(i, j, _) := t in i <> j) -> unmoved (w k) (act_on w t k) /\ immovable (act_on w t k).
Proof.
  destruct t as [[i j] x]. intros Hk Hne. cbn [act_on]. pose proof (act_good x (w i) (w j)) as G. unfold goodact in G.
  destruct (act x (w i) (w j)) as [a b]. destruct G as [(F1 & F2 & _ & Ua & Ub) _].
  destruct (Nat.eq_dec k j) as [->|Nj]; [rewrite set_same; split; [auto|eapply immovable_frame; eauto]|]. rewrite set_other by auto.
  destruct (Nat.eq_dec k i) as [->|Ni]; [rewrite set_same; split; [auto|eapply immovable_frame; eauto]|]. rewrite set_other by auto.
  split; [apply unmoved_refl|auto].
Qed.
Lemma acts_immovable l : forall w k, immovable (w k) -> Forall (fun t => let '(i, j, _) := t in i <> j) l -> unmoved (w k) (acts w l k).
Proof.
  induction l as [|t l IH]; intros w k Hk Hl; cbn; [apply unmoved_refl|]. inversion Hl; subst.
  destruct (act_immovable w t k Hk H1) as [U I]. eapply unmoved_trans; [exact U|]. apply IH; auto.
Qed.

(** ** C34: admissibility, both arithmetics *)
Section Adm.
Context {T : Type} `{OT : OrdNum T}.
Lemma nmax0_le (x : T) : ok x -> nleb nzero (nmax x nzero) = true.
Proof.
  intros Hx. unfold nzero. rewrite nleb_val by eauto using nlit0_ok, nmax_ok. apply Rleb_true.
  rewrite nmax_val, nlit0_val by eauto using nlit0_ok. apply Rmax_r.
Qed.
Lemma nclamp_bounds (f lo hi : T) : nleb lo hi = true -> nleb lo (nclamp f lo hi) = true /\ nleb (nclamp f lo hi) hi = true.
Proof.
  intros Hl. destruct (nleb_ok _ _ Hl) as [Kl Kh]. rewrite nleb_val in Hl by auto. apply Rleb_true in Hl.
  unfold nclamp. destruct (nltb lo f) eqn:E.
  - destruct (nltb_ok _ _ E) as [_ Kf]. rewrite nltb_val in E by auto. apply Rltb_true in E.
    rewrite !nleb_val by auto using nmin_ok. rewrite !Rleb_true, nmin_val by auto. unfold Rmin. destruct (Rle_dec _ _); lra.
  - rewrite !nleb_val by auto using nmin_ok. rewrite !Rleb_true, nmin_val by auto. unfold Rmin. destruct (Rle_dec _ _); lra.
Qed.
Lemma neg_le_self (x : T) : nleb nzero x = true -> nleb (nneg x) x = true.
Proof.
  intros H. destruct (nleb_ok _ _ H) as [_ K]. unfold nzero in H. rewrite nleb_val in H by auto using nlit0_ok.
  apply Rleb_true in H. rewrite nlit0_val in H. rewrite nleb_val by auto using nneg_ok. apply Rleb_true. rewrite nneg_val by auto. lra.
Qed.
Lemma neg_le_zero (x : T) : nleb nzero x = true -> nleb (nneg x) nzero = true.
Proof.
  intros H. destruct (nleb_ok _ _ H) as [_ K]. unfold nzero in *. rewrite nleb_val in H by auto using nlit0_ok.
  apply Rleb_true in H. rewrite nlit0_val in H. rewrite nleb_val by auto using nneg_ok, nlit0_ok. apply Rleb_true. rewrite nneg_val, nlit0_val by auto. lra.
Qed.
End Adm.
