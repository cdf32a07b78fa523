(** C141: SleepTimeThreshold set back to INFINITY while bodies sleep (space.go:536-615 with sleep = false). *)
From Coq Require Import List Arith NArith Bool Lia.
From Verif Require Import SpecSpace.
From Verif.Model Require Import HashSet Space.
From Verif.Props Require Import SpaceProps.
Import ListNotations.

Section Props.
Context {T : Type} `{Time T}.
Implicit Types (s : Space T) (b x : nat).
Definition same_roots s s' : Prop := forall b, sb_root (sp_b s' b) = sb_root (sp_b s b).
Lemma sr_refl s : same_roots s s. Proof. intros b; reflexivity. Qed.
Lemma sr_trans s1 s2 s3 : same_roots s1 s2 -> same_roots s2 s3 -> same_roots s1 s3. Proof. intros A B b. now rewrite B, A. Qed.
Lemma each_sr (f : Space T -> nat -> option (Space T)) : (forall s x s', f s x = Some s' -> same_roots s s') -> forall l s s', each f s l = Some s' -> same_roots s s'.
Proof.
  intros F. induction l as [|x l IH]; intros s s'; cbn [each]; [intros [= <-]; apply sr_refl|]. destruct (f s x) as [s1|] eqn:E; [|discriminate].
  intros D. eapply sr_trans; [exact (F _ _ _ E)|now apply IH].
Qed.
Lemma upd_sr s b X : sb_root X = sb_root (sp_b s b) -> same_roots s (upd_b s b X).
Proof. intros E c. cbn. unfold upd. destruct (Nat.eqb_spec c b) as [->|]; auto. Qed.
Lemma push_sr s b x s' : push_arb s b x = Some s' -> same_roots s s'.
Proof. unfold push_arb. destruct (memb _ _); [discriminate|]. intros [= <-]. now apply upd_sr. Qed.
Lemma unthread_sr s x : same_roots s (unthread s x).
Proof. unfold unthread. cbv zeta. eapply sr_trans; apply upd_sr; reflexivity. Qed.
Lemma hit_sr s h s' : hit_step s h = Some s' -> same_roots s s'.
Proof.
  unfold hit_step. destruct (_ || _); [intros [= <-]; apply sr_refl|].
  destruct (find_pair s _ _) as [x|]; cbv zeta; intros [= <-] b; cbn;
    repeat match goal with |- context [if ?c then _ else _] => destruct c; cbn end; reflexivity.
Qed.
Lemma hits_sr : forall hs s s', hits_step s hs = Some s' -> same_roots s s'.
Proof.
  induction hs as [|h hs IH]; intros s s'; cbn [hits_step]; [intros [= <-]; apply sr_refl|]. destruct (hit_step s h) as [s1|] eqn:E; [|discriminate].
  intros D. eapply sr_trans; [exact (hit_sr _ _ _ E)|now apply IH].
Qed.
(** Step with sleeping switched off puts no body to sleep and wakes none, whatever touches it. *)
Theorem C141_step_changes_no_sleep : forall s dt mv hits s', step s dt mv None hits = Some s' -> forall b, asleep s' b <-> asleep s b.
Proof.
  intros s dt mv hits s' E. assert (R : same_roots s s').
  { unfold step in E. set (s0 := emit _ _) in E. assert (R0 : same_roots s s0) by (intros b; reflexivity).
    destruct (each start_arb s0 _) as [s1|] eqn:E1; [|discriminate]. apply each_sr in E1.
    2:{ intros q x q'. unfold start_arb. cbv zeta. intros [= <-]. destruct (negb _ && negb _); [eapply sr_trans; [|apply unthread_sr]|]; intros b; reflexivity. }
    cbn zeta in E. destruct (hits_step _ hits) as [s2|] eqn:E2; [|discriminate]. apply hits_sr in E2.
    destruct (process_components s2 dt mv None) as [s3|] eqn:E3; [|discriminate].
    assert (R3 : same_roots s2 s3).
    { unfold process_components in E3. destruct (each (push_step false) s2 _) as [q|] eqn:Q; [|discriminate]. injection E3 as <-.
      refine (each_sr _ _ _ _ _ Q). intros u x u'. unfold push_step. cbn [andb]. destruct (push_arb u _ x) as [v|] eqn:V; [|discriminate].
      intros W. eapply sr_trans; [exact (push_sr _ _ _ _ V)|exact (push_sr _ _ _ _ W)]. }
    destruct (each age_arb s3 _) as [s4|] eqn:E4; [|discriminate]. apply each_sr in E4.
    2:{ intros q x q'. unfold age_arb. cbv zeta. intros D b. repeat match type of D with context [if ?c then _ else _] => destruct c end; injection D as <-; reflexivity. }
    apply each_sr in E; [|intros q x q'; unfold post_one; intros [= <-] b; reflexivity].
    intros b. rewrite E, E4, R3, E2. cbn. now rewrite E1, R0. }
  intros b. unfold asleep. now rewrite R.
Qed.
End Props.

Local Existing Instance time_nat.
(** False: "a sleeping body is woken when an awake body touches it" and "Step ends": body 3 flies into the sleeping body 1
    (shapes 13 and 11) after the threshold was set back.  After one step 1 still sleeps although their contact is being solved and
    is in both lists; the next step, the same contact is put into both lists a second time (the model stops there; the lists are
    then circular: C26_pushed_twice_never_ends). *)
Theorem C141_touched_sleeper_refuted : exists (s s1 : Space nat) dt mv h, reachable s /\ can_step s (Some dt) [h] /\ ss_body (sp_s s (h_a h)) = 1 /\ ss_body (sp_s s (h_b h)) = 3 /\
  asleep s 1 /\ ~ asleep s 3 /\ step s dt mv None [h] = Some s1 /\ asleep s1 1 /\
  (exists x, In x (sp_arbs s1) /\ In x (sb_arbs (sp_b s1 1)) /\ In x (sb_arbs (sp_b s1 3))) /\
  step s1 dt mv None [h] = None /\ step s1 dt mv (Some dt) [h] = None.
Proof.
  exists demo2, (ex demo2 (Step 5 flies None [mkHit 11 13 8 true true false])), 5, flies, (mkHit 11 13 8 true true false).
  split; [apply demo2_reach|]. split; [apply can_step_b; [vm_compute; reflexivity|cbn; nd|fop|vm_compute; reflexivity]|].
  split; [vm_compute; reflexivity|]. split; [vm_compute; reflexivity|]. split; [vm_compute; discriminate|]. split; [intros D; apply D; vm_compute; reflexivity|].
  split; [vm_compute; reflexivity|]. split; [vm_compute; discriminate|]. split; [exists 8; vm_compute; auto|]. split; vm_compute; reflexivity.
Qed.
Example C141_nonvacuous : exists s1, step demo2 5 flies None [mkHit 11 13 8 true true false] = Some s1 /\ asleep demo2 2 /\ asleep s1 2 /\ ~ asleep s1 3.
Proof. eexists. split; [vm_compute; reflexivity|]. split; [vm_compute; discriminate|]. split; [vm_compute; discriminate|]. intros D. apply D. vm_compute. reflexivity. Qed.
Print Assumptions C141_step_changes_no_sleep. Print Assumptions C141_touched_sleeper_refuted. Print Assumptions C141_nonvacuous.
