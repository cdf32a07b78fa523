(** Momentum of a group over whole steps. *)
From Coq Require Import Reals ZArith Bool List Lra Lia Permutation.
From Verif Require Import Num Spec SpecBody SpecSolver SpecStep.
From Verif.Model Require Import Vector BB Transform Body Solver Step.
From Verif.Proofs Require Import RTac Geom BodyPf SolverPf StepPf.
Import ListNotations.
Local Open Scope R_scope.

(** ** two bodies: only velocities change, and oppositely *)
Definition only_vel (a a' : Body R) : Prop := exists v w vb wb, a' = upd_bias (upd_vel a v w) vb wb.
Definition bmom2 (a b : Body R) : RV := vplus (vscale (b_m a) (b_vbias a)) (vscale (b_m b) (b_vbias b)).
Definition gc (a b a' b' : Body R) : Prop :=
  only_vel a a' /\ only_vel b b' /\ (finite_mass a -> finite_mass b -> mom2 a' b' = mom2 a b /\ bmom2 a' b' = bmom2 a b) /\
  (immovable a -> a' = a) /\ (immovable b -> b' = b).
Lemma only_vel_refl a : only_vel a a.
Proof. exists (b_v a), (b_w a), (b_vbias a), (b_wbias a). destruct a; reflexivity. Qed.
Lemma only_vel_trans a b c : only_vel a b -> only_vel b c -> only_vel a c.
Proof. intros (v & w & vb & wb & ->) (v' & w' & vb' & wb' & ->). exists v', w', vb', wb'. destruct a; reflexivity. Qed.
Lemma only_vel_frame a a' : only_vel a a' -> same_frame a a'.
Proof. intros (v & w & vb & wb & ->). repeat split. Qed.
Lemma gc_refl a b : gc a b a b.
Proof. split; [apply only_vel_refl|]. split; [apply only_vel_refl|]. auto. Qed.
Lemma gc_trans a b c d e f : gc a b c d -> gc c d e f -> gc a b e f.
Proof.
  intros (A1 & A2 & A3 & A4 & A5) (B1 & B2 & B3 & B4 & B5). split; [eapply only_vel_trans; eauto|]. split; [eapply only_vel_trans; eauto|].
  split; [|split].
  - intros Fa Fb. destruct (A3 Fa Fb) as [E1 E2]. destruct (B3 (finite_frame _ _ (only_vel_frame _ _ A1) Fa) (finite_frame _ _ (only_vel_frame _ _ A2) Fb)) as [E3 E4].
    split; congruence.
  - intros I. rewrite B4; [auto|]. rewrite A4; auto.
  - intros I. rewrite B5; [auto|]. rewrite A5; auto.
Qed.
Lemma body_upd_eq (a : Body R) v w vb wb : v = b_v a -> w = b_w a -> vb = b_vbias a -> wb = b_wbias a -> upd_bias (upd_vel a v w) vb wb = a.
Proof. intros -> -> -> ->. destruct a; reflexivity. Qed.
Ltac gcs := split; [do 4 eexists; reflexivity|]; split; [do 4 eexists; reflexivity|].
Lemma vel_as (a : Body R) v w : upd_vel a v w = upd_bias (upd_vel a v w) (b_vbias a) (b_wbias a).
Proof. destruct a; reflexivity. Qed.
Lemma bias_as (a : Body R) vb wb : upd_bias a vb wb = upd_bias (upd_vel a (b_v a) (b_w a)) vb wb.
Proof. destruct a; reflexivity. Qed.
Lemma gc_vel a b va wa vb wb :
  (finite_mass a -> finite_mass b -> vplus (vscale (b_m a) va) (vscale (b_m b) vb) = mom2 a b) ->
  (immovable a -> va = b_v a /\ wa = b_w a) -> (immovable b -> vb = b_v b /\ wb = b_w b) -> gc a b (upd_vel a va wa) (upd_vel b vb wb).
Proof.
  intros M Ia Ib. rewrite (vel_as a), (vel_as b). gcs. split; [|split].
  - intros Fa Fb. split; [|reflexivity]. apply M; assumption.
  - intros I. destruct (Ia I) as [-> ->]. now apply body_upd_eq.
  - intros I. destruct (Ib I) as [-> ->]. now apply body_upd_eq.
Qed.
Lemma gc_impulses a b r1 r2 J : let '(a', b') := apply_impulses a b r1 r2 J in gc a b a' b'.
Proof.
  unfold apply_impulses. apply gc_vel.
  - intros (Ma & Ia & Ea & _) (Mb & Ib & Eb & _). unfold mom2, vadd, vmult, vneg. unR. rewrite Ea, Eb. unfold vplus, vscale. apply vec_eq; cbn [vx vy]; field; lra.
  - intros (Ea & Eb). unfold vadd, vmult, vneg. unR. rewrite Ea, Eb. split; [apply vec_eq; cbn [vx vy]; ring|ring].
  - intros (Ea & Eb). unfold vadd, vmult, vneg. unR. rewrite Ea, Eb. split; [apply vec_eq; cbn [vx vy]; ring|ring].
Qed.
Lemma gc_bias a b r1 r2 J : let '(a', b') := apply_bias_impulses a b r1 r2 J in gc a b a' b'.
Proof.
  unfold apply_bias_impulses. rewrite (bias_as a), (bias_as b). gcs. split; [|split].
  - intros (Ma & Ia & Ea & _) (Mb & Ib & Eb & _). split; [reflexivity|]. unfold bmom2. cbn [b_m b_vbias upd_bias upd_vel]. unfold vadd, vmult, vneg. unR. rewrite Ea, Eb. unfold vplus, vscale. apply vec_eq; cbn [vx vy]; field; lra.
  - intros (Ea & Eb). apply body_upd_eq; [reflexivity|reflexivity| |]; unfold vadd, vmult, vneg; unR; rewrite ?Ea, ?Eb; [apply vec_eq; cbn [vx vy]; ring|ring].
  - intros (Ea & Eb). apply body_upd_eq; [reflexivity|reflexivity| |]; unfold vadd, vmult, vneg; unR; rewrite ?Ea, ?Eb; [apply vec_eq; cbn [vx vy]; ring|ring].
Qed.
Ltac gspin := unfold spin, unspin, gear_spin; apply gc_vel; [intros; reflexivity|intros (Ea & Eb); split; [reflexivity|unR; rewrite ?Ea, ?Eb; ring]|intros (Ea & Eb); split; [reflexivity|unR; rewrite ?Ea, ?Eb; ring]].
Lemma gc_spin a b j : let '(a', b') := spin a b j in gc a b a' b'. Proof. gspin. Qed.
Lemma gc_unspin a b j : let '(a', b') := unspin a b j in gc a b a' b'. Proof. gspin. Qed.
Lemma gc_gear a b j k : let '(a', b') := gear_spin a b j k in gc a b a' b'. Proof. gspin. Qed.

Definition good {X} (f : X -> Body R -> Body R -> X * Body R * Body R) : Prop := forall x a b, let '(_, a', b') := f x a b in gc a b a' b'.
Lemma good_contact n surf u l : forall a b, let '(a', b', _) := contacts_step n surf u a b l in gc a b a' b'.
Proof.
  induction l as [|c l IH]; intros a b; cbn [contacts_step]; [apply gc_refl|].
  assert (G : let '(a', b', _) := contact_step n surf u a b c in gc a b a' b').
  { unfold contact_step. cbv zeta.
    match goal with |- context [apply_bias_impulses a b ?r1 ?r2 ?J] => pose proof (gc_bias a b r1 r2 J) as HB; destruct (apply_bias_impulses a b r1 r2 J) as [a1 b1] end.
    match goal with |- context [apply_impulses a1 b1 ?r1 ?r2 ?J] => pose proof (gc_impulses a1 b1 r1 r2 J) as HI; destruct (apply_impulses a1 b1 r1 r2 J) as [a2 b2] end.
    eapply gc_trans; eauto. }
  destruct (contact_step n surf u a b c) as [[a1 b1] c1]. specialize (IH a1 b1). destruct (contacts_step n surf u a1 b1 l) as [[a2 b2] l2]. eapply gc_trans; eauto.
Qed.
Lemma good_arb_solve : good (@arb_apply_impulse R _).
Proof.
  intros arb a b. unfold arb_apply_impulse. pose proof (good_contact (ar_n arb) (ar_surf arb) (ar_u arb) (ar_contacts arb) a b) as G.
  destruct (contacts_step _ _ _ a b _) as [[a' b'] l]. exact G.
Qed.
Lemma good_arb_prestep se dt : good (prestep_arb (T := R) se dt).
Proof. intros arb a b. cbn [prestep_arb]. apply gc_refl. Qed.
Lemma good_arb_cached k : good (cached_arb (T := R) k).
Proof.
  intros arb a b. unfold cached_arb, arb_apply_cached.
  assert (G : forall l a b, let '(a', b') := fold_left (fun '(a, b) con => let j := vrotate (ar_n arb) (mkV (c_jnAcc con) (c_jtAcc con)) in
           apply_impulses a b (c_r1 con) (c_r2 con) (vmult j k)) l (a, b) in gc a b a' b').
  { clear. induction l as [|c l IH]; intros a b; cbn [fold_left]; [apply gc_refl|].
    match goal with |- context [apply_impulses a b ?r1 ?r2 ?J] => pose proof (gc_impulses a b r1 r2 J) as HI; destruct (apply_impulses a b r1 r2 J) as [a2 b2] end.
    specialize (IH a2 b2). destruct (fold_left _ l (a2, b2)) as [a3 b3]. eapply gc_trans; eauto. }
  specialize (G (ar_contacts arb) a b). destruct (ar_state arb); try apply gc_refl; destruct (fold_left _ _ (a, b)) as [a3 b3]; exact G.
Qed.
Ltac gi a b := match goal with
  | |- context [apply_impulses a b ?r1 ?r2 ?J] => pose proof (gc_impulses a b r1 r2 J) as HI; destruct (apply_impulses a b r1 r2 J) as [? ?]; exact HI
  | |- context [spin a b ?J] => pose proof (gc_spin a b J) as HI; destruct (spin a b J) as [? ?]; exact HI
  | |- context [unspin a b ?J] => pose proof (gc_unspin a b J) as HI; destruct (unspin a b J) as [? ?]; exact HI
  | |- context [gear_spin a b ?J ?K] => pose proof (gc_gear a b J K) as HI; destruct (gear_spin a b J K) as [? ?]; exact HI
  end.
Lemma good_con_prestep dt : good (prestep_con (T := R) dt).
Proof.
  intros [p j] a b. unfold prestep_con. destruct j; cbn [j_prestep]; try apply gc_refl; unfold spring_prestep, rspring_prestep; cbv zeta; gi a b.
Qed.
Lemma good_con_cached k : good (cached_con (T := R) k).
Proof. intros [p j] a b. unfold cached_con. cbn [snd]. destruct j; cbn [j_cached]; try apply gc_refl; gi a b. Qed.
Lemma good_con_solve dt : good (solve_con (T := R) dt).
Proof.
  intros [p j] a b. unfold solve_con. destruct j; cbn [j_apply].
  - unfold pin_apply. cbv zeta. gi a b.
  - unfold pivot_apply. cbv zeta. gi a b.
  - unfold slide_apply. destruct (vequal _ _); [apply gc_refl|]. cbv zeta. gi a b.
  - unfold groove_apply. cbv zeta. gi a b.
  - unfold gear_apply. cbv zeta. gi a b.
  - unfold ratchet_apply. destruct (_ =? _)%num; [apply gc_refl|]. cbv zeta. gi a b.
  - unfold rotary_apply. destruct (_ =? _)%num; [apply gc_refl|]. cbv zeta. gi a b.
  - unfold motor_apply. cbv zeta. gi a b.
  - unfold spring_apply. cbv zeta. gi a b.
  - unfold rspring_apply. cbv zeta. gi a b.
Qed.

(** ** groups *)
Definition total (h : Body R -> RV) (w : world) (ids : list nat) : RV := fold_right (fun i s => vplus (h (w i)) s) (mkV 0 0) ids.
Lemma momentum_total w ids : momentum w ids = total (fun b => vscale (b_m b) (b_v b)) w ids.
Proof. induction ids; cbn; [reflexivity|]. now rewrite IHids. Qed.
Lemma total_ext h w w' ids : (forall i, In i ids -> w i = w' i) -> total h w ids = total h w' ids.
Proof. induction ids as [|a l IH]; intros E; cbn; [reflexivity|]. rewrite (E a) by (now left). f_equal. apply IH. intros; apply E; now right. Qed.
Lemma total_perm h w l l' : Permutation l l' -> total h w l = total h w l'.
Proof.
  unfold total. induction 1; cbn [fold_right]; auto; try congruence. rewrite !vplus_assoc. f_equal. apply vplus_comm.
Qed.
Definition lin (b : Body R) : RV := vscale (b_m b) (b_v b).
Definition bia (b : Body R) : RV := vscale (b_m b) (b_vbias b).
Definition keeps_frame (w w' : world) : Prop := forall i, only_vel (w i) (w' i).
Lemma keeps_refl w : keeps_frame w w. Proof. intros i. apply only_vel_refl. Qed.
Lemma keeps_trans w w' w'' : keeps_frame w w' -> keeps_frame w' w'' -> keeps_frame w w''.
Proof. intros A B i. eapply only_vel_trans; eauto. Qed.
(** the effect of a loop over links on a group *)
Definition loop_ok (ids : list nat) (w w' : world) : Prop :=
  keeps_frame w w' /\ (NoDup ids -> (forall i, In i ids -> finite_mass (w i)) -> total lin w' ids = total lin w ids /\ total bia w' ids = total bia w ids) /\
  (forall i, immovable (w i) -> w' i = w i).
Lemma loop_refl ids w : loop_ok ids w w.
Proof. split; [apply keeps_refl|]. auto. Qed.
Lemma loop_trans ids w w' w'' : loop_ok ids w w' -> loop_ok ids w' w'' -> loop_ok ids w w''.
Proof.
  intros (A1 & A2 & A3) (B1 & B2 & B3). split; [eapply keeps_trans; eauto|]. split.
  - intros N Hf. destruct (A2 N Hf) as [E1 E2]. destruct (B2 N) as [E3 E4]; [|split; congruence].
    intros i Hi. eapply finite_frame; [apply only_vel_frame, A1|auto].
  - intros i I. rewrite B3; [auto|]. rewrite A3; auto.
Qed.
Lemma put_ok ids (w : world) i k a b : i <> k -> (In i ids <-> In k ids) -> gc (w i) (w k) a b -> loop_ok ids w (put (put w i a) k b).
Proof.
  intros Ne Io (G1 & G2 & G3 & G4 & G5).
  assert (Wi : put (put w i a) k b i = a) by (rewrite put_other, put_same; auto).
  assert (Wk : put (put w i a) k b k = b) by (rewrite put_same; auto).
  assert (Wo : forall l, l <> i -> l <> k -> put (put w i a) k b l = w l) by (intros; rewrite !put_other; auto).
  set (w' := put (put w i a) k b) in *. split; [|split].
  - intros l. destruct (Nat.eq_dec l i) as [->|]; [now rewrite Wi|]. destruct (Nat.eq_dec l k) as [->|]; [now rewrite Wk|]. rewrite Wo by assumption. apply only_vel_refl.
  - intros ND Fm. destruct (in_dec Nat.eq_dec i ids) as [Hi|Hi].
    + assert (Hk : In k ids) by (now apply Io). destruct (split2 i k ids ND Hi Hk Ne) as (rest & P & N1 & N2).
      destruct (G3 (Fm i Hi) (Fm k Hk)) as [E1 E2].
      assert (Er : forall h, total h w' rest = total h w rest) by (intros h; apply total_ext; intros l Hl; apply Wo; intros ->; contradiction).
      rewrite !(total_perm _ _ _ _ P). cbn [total fold_right]. fold (total lin w' rest) (total bia w' rest) (total lin w rest) (total bia w rest). rewrite Wi, Wk, !Er, !vplus_assoc.
      split; f_equal; [exact E1|exact E2].
    + assert (Hk : ~ In k ids) by (intros X; now apply Hi, Io).
      split; apply total_ext; intros l Hl; apply Wo; intros ->; contradiction.
  - intros l I. destruct (Nat.eq_dec l i) as [->|]; [rewrite Wi; auto|]. destruct (Nat.eq_dec l k) as [->|]; [rewrite Wk; auto|]. now apply Wo.
Qed.
Lemma each_link_ok {X} (f : X -> Body R -> Body R -> X * Body R * Body R) ids l : good f -> closed ids l -> forall w, loop_ok ids w (fst (each_link f l w)).
Proof.
  intros G. induction l as [|[[i k] x] l IH]; intros C w; cbn [each_link]; [apply loop_refl|].
  destruct (C i k x (or_introl eq_refl)) as [Ne Io]. specialize (G x (w i) (w k)). destruct (f x (w i) (w k)) as [[x' a] b].
  specialize (IH (closed_tl _ _ _ C) (put (put w i a) k b)). destruct (each_link f l (put (put w i a) k b)) as [w' l']. cbn [fst] in *.
  eapply loop_trans; [|exact IH]. now apply put_ok.
Qed.
Lemma iterate_ok ids dt n : forall (w : @store R) arbs js, closed ids arbs -> closed ids js -> loop_ok ids w (fst (fst (iterate (T := R) dt n (w, arbs, js)))).
Proof.
  induction n as [|n IH]; intros w arbs js C1 C2; cbn [iterate]; [apply loop_refl|].
  pose proof (each_link_ok arb_apply_impulse ids arbs good_arb_solve C1 w) as L1. pose proof (each_link_closed arb_apply_impulse ids arbs w C1) as D1.
  destruct (each_link arb_apply_impulse arbs w) as [w1 l1]. cbn [fst snd] in *.
  pose proof (each_link_ok (solve_con dt) ids js (good_con_solve dt) C2 w1) as L2. pose proof (each_link_closed (solve_con dt) ids js w1 C2) as D2.
  destruct (each_link (solve_con dt) js w1) as [w2 l2]. cbn [fst snd] in *.
  eapply loop_trans; [exact L1|]. eapply loop_trans; [exact L2|]. apply IH; assumption.
Qed.

(** ** one step *)
Definition pos1 (b : Body R) : RV := vscale (b_m b) (b_p b).
Lemma only_vel_type a a' : only_vel a a' -> b_type a' = b_type a.
Proof. intros (v & w & vb & wb & ->). reflexivity. Qed.
Lemma update_position_facts (b : Body R) dt : let b' := b_update_position b dt in
  b_m b' = b_m b /\ b_minv b' = b_minv b /\ b_i b' = b_i b /\ b_iinv b' = b_iinv b /\ b_v b' = b_v b /\ b_f b' = b_f b /\ b_type b' = b_type b /\
  b_vbias b' = mkV 0 0 /\ b_p b' = vplus (b_p b) (vscale dt (vplus (b_v b) (b_vbias b))).
Proof.
  cbv zeta. repeat split. unfold b_update_position, b_set_transform. cbn [b_p upd_bias upd_tr upd_a upd_p]. unfold vadd, vmult, vplus, vscale. unR. apply vec_eq; cbn [vx vy]; ring.
Qed.
Lemma update_velocity_facts (b : Body R) g d dt : b_type b = DYNAMIC -> let b' := b_update_velocity b g d dt in
  b_m b' = b_m b /\ b_minv b' = b_minv b /\ b_i b' = b_i b /\ b_iinv b' = b_iinv b /\ b_p b' = b_p b /\ b_f b' = mkV 0 0 /\ b_type b' = b_type b /\ b_vbias b' = b_vbias b /\
  b_v b' = vplus (vscale d (b_v b)) (vscale dt (vplus g (vscale (b_minv b) (b_f b)))).
Proof.
  intros E b'. assert (K : is_kinematic b = false) by (unfold is_kinematic; now rewrite E). unfold b', b_update_velocity. rewrite K. cbn [upd_force upd_vel]. repeat split.
  cbn [b_v upd_force upd_vel]. unfold vadd, vmult, vplus, vscale. unR. apply vec_eq; cbn [vx vy]; ring.
Qed.
Lemma sum_positions ids dt (w : world) : forall w', (forall i, In i ids -> w' i = b_update_position (w i) dt) ->
  total lin w' ids = total lin w ids /\ total bia w' ids = mkV 0 0 /\ total (@b_f R) w' ids = total (@b_f R) w ids /\ mass_of w' ids = mass_of w ids /\
  total pos1 w' ids = vplus (total pos1 w ids) (vscale dt (vplus (total lin w ids) (total bia w ids))).
Proof.
  intros w'. induction ids as [|i ids IH]; intros E.
  - unfold total, mass_of. cbn [fold_right]. repeat match goal with |- _ /\ _ => split end; try reflexivity; unfold vplus, vscale; apply vec_eq; cbn [vx vy]; ring.
  - destruct IH as (I1 & I2 & I3 & I4 & I5); [intros j Hj; apply E; now right|]. pose proof (E i (or_introl eq_refl)) as Ei.
    destruct (update_position_facts (w i) dt) as (F1 & _ & _ & _ & F5 & F6 & _ & F8 & F9). rewrite <- Ei in *.
    unfold total, mass_of in *. cbn [fold_right]. rewrite I1, I2, I3, I4, I5. unfold lin, bia, pos1 in *. rewrite F1, F5, F6, F8, F9.
    repeat match goal with |- _ /\ _ => split end; try reflexivity; unfold vplus, vscale; apply vec_eq; cbn [vx vy]; ring.
Qed.
Lemma sum_velocities ids g d dt (w : world) : (forall i, In i ids -> finite_mass (w i) /\ b_type (w i) = DYNAMIC) -> forall w', (forall i, In i ids -> w' i = b_update_velocity (w i) g d dt) ->
  total lin w' ids = vplus (vscale d (total lin w ids)) (vscale dt (vplus (vscale (mass_of w ids) g) (total (@b_f R) w ids))) /\
  total bia w' ids = total bia w ids /\ total (@b_f R) w' ids = mkV 0 0 /\ mass_of w' ids = mass_of w ids /\ total pos1 w' ids = total pos1 w ids.
Proof.
  intros Fm w'. induction ids as [|i ids IH]; intros E.
  - unfold total, mass_of. cbn [fold_right]. repeat match goal with |- _ /\ _ => split end; try reflexivity; unfold vplus, vscale; apply vec_eq; cbn [vx vy]; ring.
  - destruct IH as (I1 & I2 & I3 & I4 & I5); [intros j Hj; apply Fm; now right|intros j Hj; apply E; now right|]. pose proof (E i (or_introl eq_refl)) as Ei.
    destruct (Fm i (or_introl eq_refl)) as ((M1 & M2 & M3 & M4) & Ty).
    destruct (update_velocity_facts (w i) g d dt Ty) as (F1 & _ & _ & _ & F5 & F6 & _ & F8 & F9). rewrite <- Ei in *.
    unfold total, mass_of in *. cbn [fold_right]. rewrite I1, I2, I3, I4, I5. unfold lin, bia, pos1 in *. rewrite F1, F5, F6, F8, F9, M3.
    repeat match goal with |- _ /\ _ => split end; try reflexivity; unfold vplus, vscale; apply vec_eq; cbn [vx vy]; field; lra.
Qed.
Lemma keeps_sums ids w w' : keeps_frame w w' -> total (@b_f R) w' ids = total (@b_f R) w ids /\ mass_of w' ids = mass_of w ids /\ total pos1 w' ids = total pos1 w ids.
Proof.
  intros K. unfold total, mass_of. induction ids as [|i ids (I1 & I2 & I3)]; cbn [fold_right]; [auto|]. rewrite I1, I2, I3.
  destruct (K i) as (v & x & vb & wb & ->). auto.
Qed.
Lemma keeps_group ids (w w' : world) : keeps_frame w w' -> group w ids -> group w' ids.
Proof.
  intros K [N G]. split; [exact N|]. intros i Hi. destruct (G i Hi) as [Fm Ty]. split; [eapply finite_frame; [apply only_vel_frame, K|exact Fm]|]. rewrite (only_vel_type _ _ (K i)). exact Ty.
Qed.
(** what the second half of a step does, given the world after the first *)
Lemma half_ok se ids dt (w : world) arbs0 js0 dyn coef : closed ids arbs0 -> closed ids js0 ->
  let '(w1, arbs) := each_link (prestep_arb (T := R) se dt) arbs0 w in
  let '(w2, js) := each_link (prestep_con dt) js0 w1 in
  let w3 := each_body (fun b => b_update_velocity b (se_gravity se) (npow (se_damping se) dt) dt) dyn w2 in
  let '(w4, _) := each_link (cached_arb coef) arbs w3 in
  let '(w5, _) := each_link (cached_con coef) js w4 in
  let '(w6, arbs', js') := iterate dt (se_iter se) (w5, arbs, js) in
  loop_ok ids w w2 /\ loop_ok ids w3 w6.
Proof.
  intros C1 C2.
  pose proof (each_link_ok (prestep_arb se dt) ids arbs0 (good_arb_prestep se dt) C1 w) as L1. pose proof (each_link_closed (prestep_arb se dt) ids arbs0 w C1) as D1.
  destruct (each_link (prestep_arb se dt) arbs0 w) as [w1 arbs]. cbn [fst snd] in *.
  pose proof (each_link_ok (prestep_con dt) ids js0 (good_con_prestep dt) C2 w1) as L2. pose proof (each_link_closed (prestep_con dt) ids js0 w1 C2) as D2.
  destruct (each_link (prestep_con dt) js0 w1) as [w2 js]. cbn [fst snd] in *. cbv zeta. set (w3 := each_body _ dyn w2).
  pose proof (each_link_ok (cached_arb coef) ids arbs (good_arb_cached coef) D1 w3) as L3. destruct (each_link (cached_arb coef) arbs w3) as [w4 x4]. cbn [fst snd] in *.
  pose proof (each_link_ok (cached_con coef) ids js (good_con_cached coef) D2 w4) as L4. destruct (each_link (cached_con coef) js w4) as [w5 x5]. cbn [fst snd] in *.
  pose proof (iterate_ok ids dt (se_iter se) w5 arbs js D1 D2) as L5. destruct (iterate dt (se_iter se) (w5, arbs, js)) as [[w6 x6] y6]. cbn [fst snd] in *.
  split; [exact (loop_trans _ _ _ _ L1 L2)|exact (loop_trans _ _ _ _ L3 (loop_trans _ _ _ _ L4 L5))].
Qed.
Lemma dt_nonzero (x : R) : x <> 0 -> (x =? nzero)%num = false.
Proof. intros N. change (Reqb x 0 = false). unfold Reqb. destruct (Req_EM_T x 0); [contradiction|reflexivity]. Qed.
Lemma dt_zero : ((0 : R) =? nzero)%num = true.
Proof. change (Reqb 0 0 = true). unfold Reqb. destruct (Req_EM_T 0 0); [reflexivity|congruence]. Qed.
Lemma step_shape se (s : Scene R) e : ev_dt e <> 0 -> exists w1 w2 w3,
  w1 = each_body (fun b => b_update_position b (ev_dt e)) (sc_dyn s) (sc_body s) /\
  w3 = each_body (fun b => b_update_velocity b (se_gravity se) (npow (se_damping se) (ev_dt e)) (ev_dt e)) (ev_dyn e) w2 /\
  (forall ids, isolated ids e -> loop_ok ids w1 w2 /\ loop_ok ids w3 (sc_body (step se s e))) /\ sc_dyn (step se s e) = ev_dyn e /\ sc_dt (step se s e) = ev_dt e.
Proof.
  intros Nz. unfold step. assert (Z : (ev_dt e =? nzero)%num = false) by (now apply dt_nonzero). rewrite Z.
  set (w1 := each_body _ (sc_dyn s) (sc_body s)). set (coef := if (sc_dt s =? nzero)%num then nzero else (ev_dt e / sc_dt s)%num).
  pose proof (fun ids C1 C2 => half_ok se ids (ev_dt e) w1 (ev_arbs e) (ev_cons e) (ev_dyn e) coef C1 C2) as Hh.
  destruct (each_link (prestep_arb se (ev_dt e)) (ev_arbs e) w1) as [w1' arbs]. destruct (each_link (prestep_con (ev_dt e)) (ev_cons e) w1') as [w2 js]. cbv zeta in Hh.
  exists w1, w2, (each_body (fun b => b_update_velocity b (se_gravity se) (npow (se_damping se) (ev_dt e)) (ev_dt e)) (ev_dyn e) w2).
  set (w3 := each_body _ (ev_dyn e) w2) in *.
  destruct (each_link (cached_arb coef) arbs w3) as [w4 x4]. destruct (each_link (cached_con coef) js w4) as [w5 x5].
  destruct (iterate (ev_dt e) (se_iter se) (w5, arbs, js)) as [[w6 x6] y6]. cbn [sc_body sc_dyn sc_dt].
  split; [reflexivity|]. split; [reflexivity|]. split; [|split; reflexivity]. intros ids [C1 C2]. apply (Hh ids C1 C2).
Qed.

Lemma each_body_moved (f : Body R -> Body R) ids l (w : world) : moved ids l -> forall i, In i ids -> each_body f l w i = f (w i).
Proof. intros [N I] i Hi. apply each_body_in; auto. Qed.
Lemma step_group se ids (s : Scene R) e : ev_dt e <> 0 -> isolated ids e -> group (sc_body s) ids -> moved ids (sc_dyn s) -> moved ids (ev_dyn e) ->
  let w := sc_body s in let w' := sc_body (step se s e) in let dt := ev_dt e in
  group w' ids /\ mass_of w' ids = mass_of w ids /\ force_on w' ids = mkV 0 0 /\ bias_momentum w' ids = mkV 0 0 /\
  momentum w' ids = vplus (vscale (npow (se_damping se) dt) (momentum w ids)) (vscale dt (vplus (vscale (mass_of w ids) (se_gravity se)) (force_on w ids))) /\
  moment_of_mass w' ids = vplus (moment_of_mass w ids) (vscale dt (vplus (momentum w ids) (bias_momentum w ids))).
Proof.
  intros Nz Is G M1 M2 w w' dt. destruct (step_shape se s e Nz) as (w1 & w2 & w3 & E1 & E3 & L & _). destruct (L ids Is) as [L1 L2]. fold w' in L2. fold dt w in E1. fold dt in E3.
  assert (P1 : forall i, In i ids -> w1 i = b_update_position (w i) dt) by (intros i Hi; rewrite E1; now apply each_body_moved with (ids := ids)).
  assert (P3 : forall i, In i ids -> w3 i = b_update_velocity (w2 i) (se_gravity se) (npow (se_damping se) dt) dt) by (intros i Hi; rewrite E3; now apply each_body_moved with (ids := ids)).
  assert (G1 : group w1 ids).
  { destruct G as [N G]. split; [exact N|]. intros i Hi. destruct (G i Hi) as [(A1 & A2 & A3 & A4) Ty]. rewrite (P1 i Hi).
    destruct (update_position_facts (w i) dt) as (F1 & F2 & F3 & F4 & _ & _ & F7 & _). split; [|now rewrite F7]. unfold finite_mass. rewrite F1, F2, F3, F4. auto. }
  assert (G2 : group w2 ids) by (eapply keeps_group; [apply L1|exact G1]).
  assert (G3 : group w3 ids).
  { destruct G2 as [N G2]. split; [exact N|]. intros i Hi. destruct (G2 i Hi) as [(A1 & A2 & A3 & A4) Ty]. rewrite (P3 i Hi).
    destruct (update_velocity_facts (w2 i) (se_gravity se) (npow (se_damping se) dt) dt Ty) as (F1 & F2 & F3 & F4 & _ & _ & F7 & _). split; [|now rewrite F7]. unfold finite_mass. rewrite F1, F2, F3, F4. auto. }
  assert (G4 : group w' ids) by (eapply keeps_group; [apply L2|exact G3]).
  destruct (sum_positions ids dt w w1 P1) as (S1 & S2 & S3 & S4 & S5).
  destruct L1 as (K1 & C1 & _). destruct (C1 (proj1 G1) (fun i Hi => proj1 (proj2 G1 i Hi))) as [T1 T2]. destruct (keeps_sums ids w1 w2 K1) as (T3 & T4 & T5).
  destruct (sum_velocities ids (se_gravity se) (npow (se_damping se) dt) dt w2 (proj2 G2) w3 P3) as (U1 & U2 & U3 & U4 & U5).
  destruct L2 as (K2 & C2 & _). destruct (C2 (proj1 G3) (fun i Hi => proj1 (proj2 G3 i Hi))) as [V1 V2]. destruct (keeps_sums ids w3 w' K2) as (V3 & V4 & V5).
  split; [exact G4|]. split; [now rewrite V4, U4, T4, S4|].
  change (force_on w' ids) with (total (@b_f R) w' ids). change (force_on w ids) with (total (@b_f R) w ids).
  change (bias_momentum w' ids) with (total bia w' ids). change (bias_momentum w ids) with (total bia w ids).
  change (moment_of_mass w' ids) with (total pos1 w' ids). change (moment_of_mass w ids) with (total pos1 w ids).
  rewrite !momentum_total. fold lin. change (fun b : Body R => vscale (b_m b) (b_v b)) with lin.
  split; [now rewrite V3, U3|]. split; [now rewrite V2, U2, T2, S2|]. split.
  - rewrite V1, U1, T1, T3, T4, S1, S3, S4. reflexivity.
  - rewrite V5, U5, T5, S5. reflexivity.
Qed.
Lemma steps_group se ids evs : forall s : Scene R, group (sc_body s) ids -> moved ids (sc_dyn s) -> force_on (sc_body s) ids = mkV 0 0 -> bias_momentum (sc_body s) ids = mkV 0 0 ->
  Forall (fun e => ev_dt e <> 0 /\ isolated ids e /\ moved ids (ev_dyn e)) evs ->
  (momentum (sc_body (steps se s evs)) ids, moment_of_mass (sc_body (steps se s evs)) ids) =
  fold_left (particle se (mass_of (sc_body s) ids)) (map ev_dt evs) (momentum (sc_body s) ids, moment_of_mass (sc_body s) ids) /\
  mass_of (sc_body (steps se s evs)) ids = mass_of (sc_body s) ids /\ group (sc_body (steps se s evs)) ids.
Proof.
  unfold steps. induction evs as [|e evs IH]; intros s G M F Bi Fe; cbn [fold_left map]; [auto|]. inversion Fe as [|? ? (Nz & Is & Mv) Fr]; subst.
  destruct (step_group se ids s e Nz Is G M Mv) as (G' & Ma & Fo & Bi' & Mo & Po).
  destruct (step_shape se s e Nz) as (_ & _ & _ & _ & _ & _ & Ed & _).
  specialize (IH (step se s e) G' ltac:(now rewrite Ed) Fo Bi' Fr). destruct IH as (I1 & I2 & I3). rewrite I1, I2. split; [|split; [exact Ma|exact I3]].
  rewrite Ma. f_equal. unfold particle. rewrite Mo, Po, F, Bi. f_equal; unfold vplus, vscale; apply vec_eq; cbn [vx vy]; ring.
Qed.
(** ** bodies that do not move *)
Lemma isolated_nil ids (e : Event R) : isolated ids e -> isolated [] e.
Proof. intros [A B]. split; intros i k x Hx; [destruct (A i k x Hx)|destruct (B i k x Hx)]; (split; [assumption|reflexivity]). Qed.
Lemma step_static se (s : Scene R) e k : isolated [] e -> immovable (sc_body s k) -> ~ In k (sc_dyn s) -> ~ In k (ev_dyn e) -> sc_body (step se s e) k = sc_body s k.
Proof.
  intros Is Im N1 N2. destruct (Req_dec (ev_dt e) 0) as [Z|Nz].
  { unfold step. assert (Ez : (ev_dt e =? nzero)%num = true) by (rewrite Z; apply dt_zero). now rewrite Ez. }
  destruct (step_shape se s e Nz) as (w1 & w2 & w3 & E1 & E3 & L & _). destruct (L [] Is) as [(_ & _ & L1) (_ & _ & L2)].
  assert (A1 : w1 k = sc_body s k) by (rewrite E1; now apply each_body_out). assert (A2 : w2 k = w1 k) by (apply L1; now rewrite A1).
  assert (A3 : w3 k = w2 k) by (rewrite E3; now apply each_body_out). rewrite L2; congruence.
Qed.
Lemma step_kinematic se (s : Scene R) e k : ev_dt e <> 0 -> isolated [] e -> immovable (sc_body s k) -> b_type (sc_body s k) = KINEMATIC -> NoDup (sc_dyn s) -> NoDup (ev_dyn e) ->
  In k (sc_dyn s) -> In k (ev_dyn e) -> sc_body (step se s e) k = b_update_position (sc_body s k) (ev_dt e).
Proof.
  intros Nz Is Im Ty D1 D2 N1 N2. destruct (step_shape se s e Nz) as (w1 & w2 & w3 & E1 & E3 & L & _). destruct (L [] Is) as [(_ & _ & L1) (_ & _ & L2)].
  assert (A1 : w1 k = b_update_position (sc_body s k) (ev_dt e)) by (rewrite E1; apply (each_body_in (fun b => b_update_position b (ev_dt e))); assumption).
  destruct (update_position_facts (sc_body s k) (ev_dt e)) as (_ & F2 & _ & F4 & _ & _ & F7 & _). rewrite <- A1 in F2, F4, F7.
  assert (I1 : immovable (w1 k)) by (unfold immovable in *; now rewrite F2, F4). assert (A2 : w2 k = w1 k) by (now apply L1).
  assert (A3 : w3 k = w2 k).
  { rewrite E3. rewrite each_body_in by assumption. unfold b_update_velocity, is_kinematic. rewrite A2, F7, Ty. reflexivity. }
  rewrite L2; congruence.
Qed.
