(** Properties C119-C121: what a space contains, iterating over it, and flags changed between steps. *)
From Coq Require Import List Arith NArith Bool Lia Permutation.
From Verif Require Import SpecSpace.
From Verif.Model Require Import HashSet Space.
From Verif.Proofs Require Import Util SpaceLib SpaceInv SpaceAct SpaceProto SpaceHist SpaceReach SpaceTop.
From Verif.Props Require Import SpaceProps.
Import ListNotations.

Section P.
Context {T : Type} `{Time T}.
Lemma happened_reach (s0 s : Space T) h : happened s0 h s -> reach s0 s.
Proof. induction 1 as [|h s o s' A IH L E]; [constructor|]. now apply reach_S with s o. Qed.
Lemma happened_in (s0 s : Space T) h : started s0 -> happened s0 h s ->
  (forall b, in_space s b <-> In b (bodies_of h)) /\ (forall x, ss_in (sp_s s x) = true <-> In x (shapes_of h)) /\ (forall c, sc_in (sp_c s c) = true <-> In c (constraints_of h)).
Proof.
  intros S0 A. induction A as [|h s o s' A IH L E].
  - destruct S0 as (k & sh & co & sb & _ & ->). cbn. unfold in_space. cbn. splits; intros; split; try discriminate; tauto.
  - destruct IH as (I1 & I2 & I3). destruct (reach_ok s) as [I _]; [exists s0; split; [exact S0|exact (happened_reach _ _ _ A)]|]. destruct (exec_frame s o s' I L E) as [F1 F2 F3 _ _ _ _].
    assert (RM : forall x y l, In x (remove Nat.eq_dec y l) <-> In x l /\ x <> y). { intros x y l. split; [apply in_remove|]. intros [? ?]. now apply in_in_remove. }
    splits.
    + intros b. rewrite F1. destruct o; cbn [bodies_of In]; rewrite ?RM, I1; try tauto. intuition congruence.
    + intros x. rewrite F2. destruct o; cbn [shapes_of In]; rewrite ?RM, I2; try tauto. intuition congruence.
    + intros x. rewrite F3. destruct o; cbn [constraints_of In]; rewrite ?RM, I3; try tauto. intuition congruence.
Qed.

(** ** C119 *)
(** ContainsBody, ContainsShape, ContainsConstraint: added and not removed since, whatever else happened. *)
Theorem C119_contains : forall (s0 s : Space T) h, started s0 -> happened s0 h s ->
  (forall b, contains_body s b = true <-> In b (bodies_of h)) /\
  (forall x, contains_shape s x = true <-> In x (shapes_of h)) /\
  (forall c, contains_constraint s c = true <-> In c (constraints_of h)).
Proof. exact happened_in. Qed.
(** EachBody and EachShape call back once for each body (shape) added and not removed since, asleep or not. *)
Theorem C119_each_exact : forall (s0 s : Space T) h, started s0 -> happened s0 h s ->
  (exists l, each_body s = Some l /\ NoDup l /\ forall b, In b l <-> In b (bodies_of h)) /\
  NoDup (each_shape s) /\ (forall x, In x (each_shape s) <-> In x (shapes_of h)).
Proof.
  intros s0 s h S0 A. destruct (happened_in s0 s h S0 A) as (I1 & I2 & _). destruct (reach_ok s) as [I _]; [exists s0; split; [exact S0|exact (happened_reach _ _ _ A)]|].
  splits.
  - destruct (each_body_ok s I) as (l & E & N & Q). exists l. splits; auto. intros b. now rewrite Q.
  - unfold each_shape. apply NoDup_app_intro; [apply I|apply I|]. intros x X1 X2. apply (i_didx _ _ I) in X1. apply (i_sidx _ _ I) in X2. intuition congruence.
  - intros x. unfold each_shape. rewrite in_app_iff, (i_didx _ _ I), (i_sidx _ _ I), <- I2. destruct (root s (ss_body (sp_s s x))) eqn:R.
    + split; [intros [D|D]; tauto|]. intros D. right. split; [exact D|]. right. discriminate.
    + destruct (kind s (ss_body (sp_s s x))) eqn:K; (split; [tauto|]); intros D; [left|left|right]; (split; [exact D|]); try (split; congruence); auto.
Qed.
(** EachConstraint of the space calls back once for each constraint added and not removed since, neither of whose bodies is asleep ... *)
Theorem C119_each_constraint : forall (s0 s : Space T) h, started s0 -> happened s0 h s ->
  NoDup (each_constraint s) /\
  forall c, In c (each_constraint s) <-> In c (constraints_of h) /\ ~ asleep s (sc_a (sp_c s c)) /\ ~ asleep s (sc_b (sp_c s c)).
Proof.
  intros s0 s h S0 A. destruct (happened_in s0 s h S0 A) as (_ & _ & I3). destruct (reach_ok s) as [I _]; [exists s0; split; [exact S0|exact (happened_reach _ _ _ A)]|].
  split; [apply I|]. intros c. unfold each_constraint. rewrite (i_cons _ _ I), I3. unfold asleep, root. split; intros (Q1 & Q2 & Q3); (split; [exact Q1|]).
  - split; congruence.
  - split; [destruct (sb_root (sp_b s (sc_a (sp_c s c)))); auto; destruct Q2; discriminate|destruct (sb_root (sp_b s (sc_b (sp_c s c)))); auto; destruct Q3; discriminate].
Qed.

(** ** C121 *)
(** SetSensor and SetCollideBodies wake the bodies concerned and those that sleep with them; what is in the space does not change. *)
Theorem C121_setters_wake : forall (s : Space T) x c v, reachable s ->
  (exists s', exec s (SetSensor x v) = Some s' /\ reachable s' /\ ss_sensor (sp_s s' x) = v /\ (forall o, linked s (body_of s x) o -> ~ asleep s' o)) /\
  (exists s', exec s (SetCollideBodies c v) = Some s' /\ reachable s' /\ sc_collide (sp_c s' c) = v /\
     (forall o, linked s (sc_a (sp_c s c)) o \/ linked s (sc_b (sp_c s c)) o -> ~ asleep s' o)).
Proof.
  intros s x c v R. destruct (reach_ok s R) as [I PR]. split.
  - destruct (set_sensor_ok s x v I) as (s1 & E1 & I1 & W & E & _). eexists. splits; [exact E| | |].
    + destruct R as (s0 & S0 & R). exists s0. split; [exact S0|]. apply reach_S with s (SetSensor x v); [exact R|exact Logic.I|exact E].
    + cbn. rewrite upd_spec, Nat.eqb_refl. reflexivity.
    + intros o Lo. change (~ asleep s1 o). apply (C22_activate_wakes_component s (ss_body (sp_s s x)) s1 R E1). exact Lo.
  - destruct (set_collide_ok s c v I) as (s1 & E1 & I1 & W & E & _). eexists. splits; [exact E| | |].
    + destruct R as (s0 & S0 & R). exists s0. split; [exact S0|]. apply reach_S with s (SetCollideBodies c v); [exact R|exact Logic.I|exact E].
    + cbn. rewrite upd_spec, Nat.eqb_refl. reflexivity.
    + intros o Lo. change (~ asleep s1 o). unfold activate_bodies in E1. destruct (activate_ok s [] (sc_a (sp_c s c)) I) as (s2 & E2 & I2 & W2 & _). rewrite E2 in E1.
      destruct (activate_ok s2 [] (sc_b (sp_c s c)) I2) as (s3 & E3 & I3 & W3 & R3 & _). rewrite (y_c _ _ W2), E3 in E1. injection E1 as <-.
      assert (K : forall y, ~ asleep s2 y -> ~ asleep s3 y). { intros y N D. apply N. unfold asleep in *. fold (root s2 y) (root s3 y) in *. destruct (y_root _ _ W3 y) as [Q|Q]; congruence. }
      assert (RS2 : reachable s2). { destruct R as (s0 & S0 & R). exists s0. split; [exact S0|]. apply reach_S with s (Activate (sc_a (sp_c s c))); [exact R|exact Logic.I|exact E2]. }
      destruct Lo as [Lo|Lo]; [apply K; now apply (C22_activate_wakes_component s (sc_a (sp_c s c)) s2 R E2)|].
      pose proof (linked_root s _ _ I Lo) as Q. intros D. unfold asleep in D. fold (root s3 o) in D. rewrite R3 in D.
      assert (Q2 : root s2 o = root s2 (sc_b (sp_c s c)) \/ root s2 o = None).
      { destruct (activate_ok s [] (sc_a (sp_c s c)) I) as (s2' & E2' & _ & _ & R2 & _). rewrite E2 in E2'. injection E2' as <-. left. now rewrite !R2, Q. }
      destruct Q2 as [Q2|Q2]; [|rewrite Q2 in D; destruct (root s2 (sc_b (sp_c s c))); apply D; reflexivity]. rewrite Q2 in D. destruct (root s2 (sc_b (sp_c s c))) as [r|]; [|apply D; reflexivity]. cbn [eqo] in D. rewrite Nat.eqb_refl in D. now apply D.
Qed.
(** From then on the flag decides: bodies joined by a constraint with collideBodies false do not collide - the pair's begin
    function is not called in the next step and the pair is apart at its end - and the shapes collide again once it is true. *)
Theorem C121_collide_bodies : forall (s s1 s2 : Space T) c dt moving thr hits a b, reachable s -> contains_constraint s c = true ->
  ((body_of s a = sc_a (sp_c s c) /\ body_of s b = sc_b (sp_c s c)) \/ (body_of s a = sc_b (sp_c s c) /\ body_of s b = sc_a (sp_c s c))) ->
  exec s (SetCollideBodies c false) = Some s1 -> legal s1 (Step dt moving thr hits) -> exec s1 (Step dt moving thr hits) = Some s2 ->
  ~ (at_rest s1 (body_of s a) /\ at_rest s1 (body_of s b)) -> ~ (at_rest s2 (body_of s a) /\ at_rest s2 (body_of s b)) ->
  contact (sp_log s2) a b = Some Apart.
Proof.
  intros s s1 s2 c dt mv thr hits a b R Hc Hb E1 L E2 M1 M2. destruct (C121_setters_wake s 0 c false R) as [_ (s1' & E1' & R1 & Cf & _)]. rewrite E1 in E1'. injection E1' as <-.
  destruct (reach_ok s R) as [I _]. pose proof (exec_frame s (SetCollideBodies c false) s1 I Logic.I E1) as [_ _ F3 F4 F5 _ _].
  rewrite <- !F4 in M1, M2. apply (C29_separated s1 dt mv thr hits s2 a b R1 L E2); auto.
  intros h Hh (_ & C). destruct (same_pair a b (h_a h) (h_b h)) eqn:EP; auto. exfalso. apply (C c); [now apply F3|exact Cf|]. destruct (F5 c) as (-> & ->). rewrite !F4.
  unfold same_pair in EP. apply orb_true_iff in EP. rewrite !andb_true_iff, !Nat.eqb_eq in EP. destruct EP as [[<- <-]|[<- <-]]; destruct Hb as [[<- <-]|[<- <-]]; tauto.
Qed.
End P.

(** *** Concrete *)
Local Existing Instance time_nat.
Definition ops2 : list (Op nat) := rev [AddBody 1; AddBody 2; AddBody 3; AddBody 4; AddShape 10; AddShape 11; AddShape 12; AddShape 13; AddShape 14; AddConstraint 0; Step 5 flies (Some 5) [mkHit 10 11 7 true true false]].
Lemma happened_ex s0 h (s : Space nat) o : happened s0 h s -> legal s o -> exec s o <> None -> happened s0 (o :: h) (ex s o).
Proof. intros A L E. unfold ex. destruct (exec s o) as [s'|] eqn:Q; [|congruence]. now apply happened_S with s. Qed.
Lemma demo2_happened : happened demo0 ops2 demo2.
Proof. unfold demo2, demo1, exs, ops2. cbn [fold_left rev app]. repeat (apply happened_ex; [|leg|vm_compute; discriminate]). constructor. Qed.
Example C119_nonvacuous : started demo0 /\ happened demo0 ops2 demo2 /\ each_shape demo2 = [13; 14; 10; 11; 12] /\ contains_constraint demo2 0 = true /\ contains_shape demo2 15 = false.
Proof. split; [|split; [exact demo2_happened|vm_compute; auto]]. eexists _, _, _, 0. split; [|reflexivity]. reflexivity. Qed.

(** ** C120: false.  ... and does not call back for the constraint between two sleeping bodies, though ContainsConstraint is true. *)
Theorem C120_each_constraint_refuted : exists (s0 s : Space nat) h c, started s0 /\ happened s0 h s /\ contains_constraint s c = true /\ In c (constraints_of h) /\ ~ In c (each_constraint s).
Proof.
  exists demo0, demo2, ops2, 0. split; [apply C119_nonvacuous|]. split; [exact demo2_happened|]. split; [vm_compute; reflexivity|]. split; [vm_compute; auto|]. vm_compute. tauto.
Qed.

(** two touching bodies joined by a constraint: switching collideBodies off and on *)
Definition on_step : Op nat := Step 5 (fun _ => true) (Some 5) [mkHit 11 12 7 true true false].
Definition demo4 : Space nat := exs demo1 [on_step].
Definition demo5 : Space nat := exs demo4 [SetCollideBodies 0 false; Step 5 (fun _ => true) (Some 5) [mkHit 11 12 8 true true false]].
Example C121_nonvacuous : contact (sp_log demo4) 11 12 = Some (Touching Posted) /\ contact (sp_log demo5) 11 12 = Some Apart /\ reachable demo5.
Proof.
  split; [vm_compute; reflexivity|]. split; [vm_compute; reflexivity|]. unfold demo5, demo4, on_step, exs. cbn [fold_left]. do 3 (apply ex_reach; [|leg|vm_compute; discriminate]). exact demo1_reach.
Qed.
Print Assumptions C119_contains. Print Assumptions C119_each_exact. Print Assumptions C119_each_constraint. Print Assumptions C120_each_constraint_refuted.
Print Assumptions C121_setters_wake. Print Assumptions C121_collide_bodies.
