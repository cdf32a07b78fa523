(** Properties C23, C26, C27: calls made while the space is locked. *)
From Coq Require Import List Arith NArith Bool Lia.
From Verif Require Import SpecSpace.
From Verif.Model Require Import HashSet Space SpaceCb.
From Verif.Proofs Require Import Util SpaceLib SpaceInv SpaceAct SpaceOps SpaceReach SpaceTop SpaceCbPf EachCbPf.
From Verif.Props Require Import SpaceProps.
Import ListNotations.

(** ** What happens between the outermost Lock and its Unlock *)
Inductive LockedCall := KLock | KUnlock | KWake (b : nat).
(** the depth of locking, starting from [d]; [None] if the space would be unlocked on the way *)
Fixpoint depth (d : nat) (l : list LockedCall) : option nat :=
  match l with
  | [] => Some d
  | KLock :: l => depth (S d) l
  | KUnlock :: l => match d with S (S d) => depth (S d) l | _ => None end
  | KWake _ :: l => depth d l
  end.
Definition wakes (l : list LockedCall) : list nat := flat_map (fun c => match c with KWake b => [b] | _ => [] end) l.
Section Locked.
Context {T : Type} `{Time T}.
Implicit Types (s t u : Space T) (b x : nat).
Fixpoint calls s (l : list LockedCall) : option (Space T) :=
  match l with
  | [] => Some s
  | KLock :: l => calls (lock s) l
  | KUnlock :: l => match unlock s with Some s => calls s l | None => None end
  | KWake b :: l => match activate s b with Some s => calls s l | None => None end
  end.

Lemma locked_id t : set_locked t (sp_locked t) = t. Proof. now destruct t. Qed.
Lemma roused_id t : set_roused t (sp_roused t) = t. Proof. now destruct t. Qed.
Lemma wakes_app l m : wakes (l ++ m) = wakes l ++ wakes m. Proof. apply flat_map_app. Qed.
(** the same calls without the inner locks *)
Lemma calls_acts l : forall t d e, sp_locked t = S d -> depth (S d) l = Some e ->
  calls t l = match each activate t (wakes l) with Some t' => Some (set_locked t' e) | None => None end.
Proof.
  assert (LK : forall k t b, sp_locked t <> 0 -> k <> 0 -> activate (set_locked t k) b = omap (fun t => set_locked t k) (activate t b)).
  { intros k t b Z1 Z2. unfold activate. change (is_dyn (set_locked t k) b) with (is_dyn t b). destruct (negb (is_dyn t b)); [reflexivity|]. change (upd_b (set_locked t k) b (b_idle (bod (set_locked t k) b) t0)) with (set_locked (upd_b t b (b_idle (bod t b) t0)) k). set (t1 := upd_b t b _). assert (Z3 : sp_locked t1 <> 0) by exact Z1. clearbody t1. cbv zeta.
    change (bod (set_locked t1 k)) with (bod t1). change (sleeping (set_locked t1 k)) with (sleeping t1).
    assert (EA : forall (f : Space T -> nat -> option (Space T)) l, (forall t x, sp_locked t <> 0 -> f (set_locked t k) x = omap (fun t => set_locked t k) (f t x) /\ forall t', f t x = Some t' -> sp_locked t' <> 0) -> forall t, sp_locked t <> 0 -> each f (set_locked t k) l = omap (fun t => set_locked t k) (each f t l) /\ forall t', each f t l = Some t' -> sp_locked t' <> 0).
    { clear. intros f l G. induction l as [|x l IH]; intros t Z; cbn [each]; [split; [reflexivity|now intros t' [= <-]]|]. destruct (G t x Z) as [-> G2]. destruct (f t x) as [t1|]; cbn [omap]; [|split; [reflexivity|discriminate]]. apply IH. now apply G2. }
    assert (WK : forall t x, sp_locked t <> 0 -> wake_one (set_locked t k) x = omap (fun t => set_locked t k) (wake_one t x) /\ forall t', wake_one t x = Some t' -> sp_locked t' <> 0).
    { clear - Z2. intros t x Z. unfold wake_one, space_activate. ss. apply Nat.eqb_neq in Z as Z', Z2. rewrite Z', Z2. cbn [negb]. cbv iota. split; [cbn [omap]; destruct (memb x (sp_roused t)); reflexivity|]. intros t' [= <-]. destruct (memb x (sp_roused t)); exact Z. }
    assert (TI : forall t x, sp_locked t <> 0 -> touch_idle b (set_locked t k) x = omap (fun t => set_locked t k) (touch_idle b t x) /\ forall t', touch_idle b t x = Some t' -> sp_locked t' <> 0).
    { clear. intros t x Z. unfold touch_idle. change (arb_other (set_locked t k)) with (arb_other t). change (is_stat (set_locked t k)) with (is_stat t). destruct (is_stat t _); (split; [reflexivity|now intros t' [= <-]]). }
    assert (MM : forall n t p, members n (set_locked t k) p = members n t p). { clear. induction n as [|n IH]; intros t [q|]; cbn [members]; auto. rewrite IH. reflexivity. }
    assert (FINAL : forall t2, sp_locked t2 <> 0 -> each (touch_idle b) (set_locked t2 k) (sb_arbs (bod t2 b)) = omap (fun t => set_locked t k) (each (touch_idle b) t2 (sb_arbs (bod t2 b)))) by (intros t2 Z; now apply (EA _ _ TI)).
    destruct (sb_root (bod t1 b)) as [r|]; [|exact (FINAL t1 Z3)]. destruct (sleeping t1 r); [|exact (FINAL t1 Z3)]. rewrite MM. change (sp_nb (set_locked t1 k)) with (sp_nb t1). destruct (members (sp_nb t1) t1 (Some r)) as [m|]; [|reflexivity].
    destruct (EA _ m WK t1 Z3) as [-> G]. destruct (each wake_one t1 m) as [t3|]; cbn [omap]; [|reflexivity]. change (set_sleep (set_locked t3 k) (del r (sp_sleep (set_locked t3 k)))) with (set_locked (set_sleep t3 (del r (sp_sleep t3))) k). refine (FINAL (set_sleep t3 (del r (sp_sleep t3))) _). exact (G t3 eq_refl). }
  assert (LKS : forall k l t, sp_locked t <> 0 -> k <> 0 -> each activate (set_locked t k) l = omap (fun t => set_locked t k) (each activate t l)).
  { intros k m. induction m as [|b m IH]; intros t Z1 Z2; cbn [each]; [reflexivity|]. rewrite LK by auto. destruct (activate t b) as [t1|] eqn:E; cbn [omap]; [|reflexivity]. apply IH; auto. now rewrite (quiet_lock _ _ (act_quiet _ _ _ Z1 E)). }
  induction l as [|[| |b] l IH]; intros t d e Z D; cbn [calls depth wakes flat_map app each] in *; try fold (wakes l).
  - injection D as <-. destruct t. cbn in *. now subst.
  - rewrite (IH (lock t) (S d) e); auto; [|unfold lock; ss; congruence]. unfold lock. rewrite LKS by (rewrite Z; discriminate). destruct (each activate t (wakes l)); reflexivity.
  - destruct d as [|d]; [discriminate|]. unfold unlock. rewrite Z. cbn [pred]. ss. cbn [Nat.eqb negb]. cbv iota. rewrite (IH (set_locked t (S d)) d e); auto. rewrite LKS by (rewrite ?Z; discriminate). destruct (each activate t (wakes l)); reflexivity.
  - destruct (activate t b) as [t1|] eqn:E; [|reflexivity]. apply IH with d; auto. rewrite <- Z. apply quiet_lock. apply act_quiet with b; auto. congruence.
Qed.

(** ** C27 *)
(** While the space stays locked the calls succeed; nothing moves between the lists, the indexes and the cache; the sleeping bodies that
    have been woken are the roused ones, each once.  When the outermost lock is released, the result is what the same Activate
    calls give on an unlocked space, and the bodies are added to the awake ones in the order of waking. *)
Theorem C27_deferred_activation : forall s l e, reachable s -> depth 1 l = Some e ->
  exists t u, calls (lock s) l = Some t /\ sp_locked t = e /\
    sp_dyn t = sp_dyn s /\ sp_didx t = sp_didx s /\ sp_sidx t = sp_sidx s /\ sp_arbs t = sp_arbs s /\ sp_cons t = sp_cons s /\ sp_cache t = sp_cache s /\ sp_log t = sp_log s /\
    NoDup (sp_roused t) /\ (forall b, In b (sp_roused t) <-> asleep s b /\ ~ asleep t b) /\ (forall b, asleep t b -> asleep s b) /\
    each activate s (wakes l) = Some u /\ reachable u /\ sp_dyn u = sp_dyn s ++ sp_roused t /\ (forall b, asleep u b <-> asleep t b) /\
    (e = 1 -> unlock t = Some u).
Proof.
  intros s l e R D. destruct (reach_ok s R) as [I _]. assert (Z := i_lock _ _ I). assert (RZ := i_roused _ _ I).
  assert (R0 : Rel (lock s) s). { unfold Rel, lock, base. ss. rewrite RZ. cbn [each]. f_equal. destruct s. cbn in *. now subst. }
  assert (Z1 : sp_locked (lock s) = 1) by (unfold lock; ss; congruence).
  destruct (rel_acts (wakes l) (lock s) s R0) as (t & u & E1 & E2 & R1 & L1 & I1 & N1 & RN1 & O1 & RT1); auto.
  - congruence. - unfold lock. ss. rewrite RZ. constructor. - unfold lock. ss. rewrite RZ. intros y [].
  - assert (Q : Quiet (lock s) t). { refine (each_quiet activate (wakes l) _ _ _ _ E1); [intros; eapply act_quiet; eauto|rewrite Z1; discriminate]. }
    assert (SM := rel_same _ _ R1).
    exists (set_locked t e), u. split; [rewrite (calls_acts l (lock s) 0 e Z1 D), E1; reflexivity|]. split; [reflexivity|].
    assert (Q' := Q). destruct Q' as (B & L & m & Et).
    do 7 (split; [subst t; reflexivity|]). ss. split; [exact N1|].
    assert (OO : forall b, In b (sp_roused t) <-> asleep s b /\ ~ asleep (set_locked t e) b).
    { intros b. rewrite (O1 b). unfold lock. ss. rewrite RZ. unfold asleep, root. ss. split; [intros [[]|[A1 A2]]; split; auto|]. intros [A1 A2]. right. split; auto. destruct (sb_root (sp_b t b)); auto. destruct A2; discriminate. }
    split; [exact OO|]. split. { intros b. unfold asleep. ss. destruct (RT1 b) as [A|A]; unfold root in A; rewrite A; [auto|congruence]. }
    split; [exact E2|]. split.
    { clear - R E2. revert s R E2. generalize (wakes l). intros m. induction m as [|b m IH]; intros s R E; cbn [each] in E; [injection E as <-; exact R|]. destruct (activate s b) as [s1|] eqn:E1; [|discriminate]. apply (IH s1); auto. destruct R as (s0 & S0 & R). exists s0. split; auto. apply reach_S with s (Activate b); auto. exact Logic.I. }
    split; [rewrite (rel_dyn _ _ R1); subst t; reflexivity|]. split; [intros b; unfold asleep; ss; rewrite (z_b _ _ SM); reflexivity|].
    intros ->. assert (L2 : sp_locked t = 1) by (rewrite L1; exact Z1). rewrite <- L2 at 1. rewrite locked_id. rewrite (unlock_rel t u R1 L2). f_equal. assert (RU := i_roused _ _ I1). rewrite <- RU. apply roused_id.
Qed.
(** in the order of waking: further calls only add at the end *)
Theorem C27_order_of_waking : forall s l m e f t t', reachable s -> depth 1 l = Some e -> depth 1 (l ++ m) = Some f ->
  calls (lock s) l = Some t -> calls (lock s) (l ++ m) = Some t' -> exists later, sp_roused t' = sp_roused t ++ later.
Proof.
  intros s l m e f t t' R D F E E'. destruct (reach_ok s R) as [I _]. assert (Z1 : sp_locked (lock s) = 1) by (unfold lock; ss; now rewrite (i_lock _ _ I)).
  rewrite (calls_acts _ _ 0 _ Z1 D) in E. rewrite (calls_acts _ _ 0 _ Z1 F), wakes_app, each_app in E'. destruct (each activate (lock s) (wakes l)) as [t1|] eqn:E1; [|discriminate]. injection E as <-.
  assert (G : forall t b t', sp_locked t <> 0 -> activate t b = Some t' -> Quiet t t') by (intros; eapply act_quiet; eauto).
  assert (Q1 := each_quiet activate (wakes l) G _ _ ltac:(rewrite Z1; discriminate) E1). destruct (each activate t1 (wakes m)) as [t2|] eqn:E2; [|discriminate]. injection E' as <-.
  assert (Q2 := each_quiet activate (wakes m) G _ _ ltac:(rewrite (quiet_lock _ _ Q1), Z1; discriminate) E2). destruct Q2 as (B & L & k & ->). exists k. reflexivity.
Qed.
End Locked.
Local Existing Instance time_nat.
Example C27_nonvacuous : reachable three /\ depth 1 [KWake 3; KLock; KWake 1; KUnlock] = Some 1 /\
  (exists t, calls (lock three) [KWake 3; KLock; KWake 1; KUnlock] = Some t /\ sp_roused t = [3; 1] /\ sp_dyn t = [] /\ exists u, unlock t = Some u /\ sp_dyn u = [3; 1] /\ asleep u 2).
Proof.
  split; [unfold three, exs; cbn [fold_left]; run|]. split; [reflexivity|]. destruct (calls (lock three) _) as [t|] eqn:E; [|vm_compute in E; discriminate E]. exists t. split; [reflexivity|]. vm_compute in E. injection E as <-. split; [reflexivity|]. split; [reflexivity|].
  match goal with |- exists u, unlock ?t = _ /\ _ => destruct (unlock t) as [u|] eqn:E; [|vm_compute in E; discriminate E] end. exists u. split; [reflexivity|]. vm_compute in E. injection E as <-. split; [reflexivity|]. vm_compute. discriminate.
Qed.

(** ** C23 *)
(** A callback that activates only bodies that are awake: every body is visited once, and the space is left as by the callback's calls, in the order of the visits *)
Theorem C23_without_waking : forall {T} `{Time T} (s : Space T) f, reachable s -> (forall b x, In x (f b) -> ~ asleep s x) ->
  exists l s', each_body_cb f s = Some (l, s') /\ NoDup l /\ (forall b, In b l <-> in_space s b) /\ each activate s (flat_map f l) = Some s' /\ (forall b, asleep s' b <-> asleep s b) /\ sp_locked s' = sp_locked s.
Proof.
  intros T HT s f R A. destruct (reach_ok s R) as [I _]. destruct (each_body_ok s I) as (l & E & ND & IL).
  assert (AW : awake f s). { intros b x Hx. specialize (A b x Hx). unfold asleep in A. destruct (sb_root (sp_b s x)) eqn:Q; [|reflexivity]. destruct A. unfold root. congruence. }
  destruct (each_body_acts f s l (i_lock _ _ I) (i_roused _ _ I) AW E) as (s' & E1 & I1 & E2). exists l, s'. split; [exact E2|]. split; [exact ND|]. split; [exact IL|]. split; [exact E1|]. split; [|now destruct I1 as (B & -> & _)].
  intros b. unfold asleep, root. rewrite (idle_root _ _ b I1). reflexivity.
Qed.
Example C23_nonvacuous : reachable demo2 /\ (forall b x, In x ((fun _ : nat => [3]) b) -> ~ asleep demo2 x) /\ exists l s', each_body_cb (fun b => [3]) demo2 = Some (l, s') /\ In 1 l /\ asleep demo2 1.
Proof. split; [apply demo2_reach|]. split; [intros b x [<-|[]]; vm_compute; congruence|]. destruct (each_body_cb (fun b => [3]) demo2) as [[l s']|] eqn:E; [|vm_compute in E; discriminate E]. exists l, s'. split; [reflexivity|]. vm_compute in E. injection E as <- <-. split; [cbn; auto|vm_compute; discriminate]. Qed.
(** otherwise it is false *)
(** A callback that wakes the body it visits.  Three bodies asleep on their own: one is never visited, one is visited twice. *)
Theorem C86_visits_each_once_refuted : exists (s : Space nat) l s', reachable s /\ each_body_cb (fun b => [b]) s = Some (l, s') /\ in_space s 2 /\ ~ In 2 l /\ ~ NoDup l.
Proof.
  assert (R : reachable three) by (unfold three, exs; cbn [fold_left]; run). exists three. destruct (each_body_cb (fun b => [b]) three) as [[l s']|] eqn:E; [|vm_compute in E; discriminate E]. exists l, s'. split; [exact R|]. split; [reflexivity|]. split; [vm_compute; reflexivity|]. vm_compute in E. injection E as <- <-. split; [cbn; intuition discriminate|]. intros D. apply NoDup_cons_iff in D as [_ D]. apply NoDup_cons_iff in D as [D _]. apply D. cbn. auto.
Qed.
(** Three bodies asleep together (joined by constraints): the third is not visited. *)
Definition trio : Space nat := exs (space_init (fun b => match b with 0 => Stat | _ => Dyn end) (fun x => (x, false)) (fun c => (1, 2 + c, true)) 0)
  [AddBody 1; AddBody 2; AddBody 3; AddConstraint 0; AddConstraint 1; Step 5 (fun _ => false) (Some 5) []].
Theorem C86_component_cut_short_refuted : exists (s : Space nat) l s', reachable s /\ length (sp_sleep s) = 1 /\ each_body_cb (fun b => [b]) s = Some (l, s') /\ exists b, in_space s b /\ ~ In b l.
Proof.
  assert (R : reachable trio) by (unfold trio, exs; cbn [fold_left]; run). exists trio. destruct (each_body_cb (fun b => [b]) trio) as [[l s']|] eqn:E; [|vm_compute in E; discriminate E]. exists l, s'. split; [exact R|]. split; [reflexivity|]. split; [reflexivity|]. vm_compute in E. injection E as <- <-.
  first [exists 3; split; [vm_compute; reflexivity|cbn; intuition discriminate]|exists 2; split; [vm_compute; reflexivity|cbn; intuition discriminate]|exists 1; split; [vm_compute; reflexivity|cbn; intuition discriminate]].
Qed.

(** ** C26: false *)
(** Body 1 sleeps on the static body; a collision of 3 and 4 whose callback activates 1 makes the step thread an arbiter that is already
    in the lists of its bodies ([push_arb] fails): the list of arbiters of the body then runs in a circle. *)
Theorem C26_wake_in_callback_refuted : exists (s : Space nat) thr hits wake, reachable s /\ can_step s thr hits /\ (forall h, In h hits -> exists b, wake h = [b] /\ asleep s b) /\
  step s 5 flies thr hits <> None /\ step_cb s 5 flies thr hits wake = None.
Proof.
  exists demo2, (Some 5), [mkHit 13 14 8 true true false], (fun _ => [1]). split; [apply demo2_reach|]. split; [apply can_step_b; [vm_compute; reflexivity|cbn; nd|fop|vm_compute; reflexivity]|].
  split; [intros h _; exists 1; split; [reflexivity|vm_compute; discriminate]|]. split; [vm_compute; discriminate|vm_compute; reflexivity].
Qed.
Print Assumptions C23_without_waking. Print Assumptions C27_deferred_activation. Print Assumptions C27_order_of_waking. Print Assumptions C86_visits_each_once_refuted. Print Assumptions C86_component_cut_short_refuted. Print Assumptions C26_wake_in_callback_refuted.
