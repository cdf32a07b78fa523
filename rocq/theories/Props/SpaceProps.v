(** Properties C19-C22, C24, C25, C29, C72-C74: the bookkeeping of a space, sleeping, and the callback protocol. *)
From Coq Require Import List Arith NArith Bool Lia.
From Verif Require Import SpecSpace.
From Verif.Model Require Import HashSet Space.
From Verif.Proofs Require Import Util SpaceLib SpaceInv SpaceAct SpaceOps SpaceOps2 SpaceStep SpaceStep2 SpaceProto SpaceHist SpaceReach SpaceTop.
Import ListNotations.

Section Props.
Context {T : Type} `{Time T}.
Implicit Types (s : Space T) (b c x : nat).

(** ** C72: a legal call on a reachable space ends normally (no panic, endless loop, double insertion), in a reachable space *)
Theorem C72_legal_calls_run : forall s o, reachable s -> legal s o -> exists s', exec s o = Some s' /\ reachable s'.
Proof.
  intros s o R L. destruct (reach_ok s R) as [I P]. destruct (exec_ok s o I P L) as (s' & E & _). exists s'. split; auto.
  destruct R as (s0 & S0 & R). exists s0. split; auto. apply reach_S with s o; auto.
Qed.

(** ** C19: EachConstraint of a body walks [sb_cons]: every constraint of the space with the body at one end, once *)
Theorem C19_constraint_list_exact : forall s b, reachable s ->
  NoDup (sb_cons (sp_b s b)) /\
  forall c, In c (sb_cons (sp_b s b)) <-> sc_in (sp_c s c) = true /\ (sc_a (sp_c s c) = b \/ sc_b (sp_c s c) = b).
Proof. intros s b R. destruct (reach_ok s R) as [I _]. split; [apply (i_con_nd _ _ I)|]. intros c. apply (i_con _ _ I c b). Qed.
(** and those are the constraints added and not removed since *)
Theorem C19_constraints_added : forall s o s' c, reachable s -> legal s o -> exec s o = Some s' ->
  (sc_in (sp_c s' c) = true <->
    match o with
    | AddConstraint d => sc_in (sp_c s c) = true \/ c = d
    | RemoveConstraint d => sc_in (sp_c s c) = true /\ c <> d
    | _ => sc_in (sp_c s c) = true
    end) /\ sc_a (sp_c s' c) = sc_a (sp_c s c) /\ sc_b (sp_c s' c) = sc_b (sp_c s c).
Proof. intros s o s' c R L E. destruct (reach_ok s R) as [I _]. pose proof (exec_frame s o s' I L E) as F. split; [apply F|apply (fr_cb _ _ _ F)]. Qed.

(** ** C20 *)
(** EachBody (with a callback that only looks) ends; it visits every body of the space once and nothing else *)
Theorem C20_each_body_exact : forall s, reachable s -> exists l, each_body s = Some l /\ NoDup l /\ forall b, In b l <-> in_space s b.
Proof. intros s R. apply each_body_ok. now apply reach_ok. Qed.
(** which of the lists: static bodies, moving bodies that are awake, and the rest in exactly one sleeping component *)
Theorem C20_one_list : forall s b, reachable s ->
  (In b (sp_stat s) <-> in_space s b /\ kind s b = Stat) /\ (In b (sp_dyn s) <-> in_space s b /\ kind s b <> Stat /\ ~ asleep s b) /\
  (asleep s b <-> exists r l, In r (sp_sleep s) /\ members (sp_nb s) s (Some r) = Some l /\ In b l) /\
  (asleep s b -> in_space s b /\ kind s b = Dyn) /\
  NoDup (sp_stat s) /\ NoDup (sp_dyn s) /\ NoDup (sp_sleep s).
Proof.
  intros s b R. destruct (reach_ok s R) as [I _]. split; [apply (i_stat _ _ I)|]. split.
  { rewrite (i_dyn _ _ I). unfold asleep, root. split; intros (A & B & C); (split; [exact A|split; [exact B|]]); [congruence|]. destruct (sb_root _); auto. destruct C; discriminate. }
  split.
  { unfold asleep. fold (root s b). split.
    - intros A. destruct (root s b) as [r|] eqn:E; [|congruence]. assert (IR := E). apply (i_root _ _ I) in IR as (_ & _ & IR & _). destruct (comp_of s [] r I IR) as (l & K & LEN & _). exists r, l. (split; [auto|split]); [apply members_chain; auto; apply K|]. now apply (k_in _ _ _ K).
    - intros (r & l & Hr & M & Hb). destruct (comp_of s [] r I Hr) as (l' & K & LEN & _). rewrite (members_chain s l') in M; auto; [|apply K]. injection M as <-. apply (k_in _ _ _ K) in Hb. congruence. }
  split; [|splits; apply I]. unfold asleep. fold (root s b). destruct (root s b) as [r|] eqn:E; [|tauto]. intros _. apply (i_root _ _ I) in E. unfold in_space. tauto.
Qed.
(** the bodies of the space are the ones added and not removed since *)
Theorem C20_bodies_added : forall s o s' b, reachable s -> legal s o -> exec s o = Some s' ->
  (in_space s' b <-> match o with AddBody c => in_space s b \/ b = c | RemoveBody c => in_space s b /\ b <> c | _ => in_space s b end).
Proof. intros s o s' b R L E. destruct (reach_ok s R) as [I _]. apply (exec_frame s o s' I L E). Qed.

(** ** C21 *)
Theorem C21_right_index : forall s x, reachable s ->
  (In x (sp_sidx s) <-> ss_in (sp_s s x) = true /\ (kind s (body_of s x) = Stat \/ asleep s (body_of s x))) /\
  (In x (sp_didx s) <-> ss_in (sp_s s x) = true /\ ~ (kind s (body_of s x) = Stat \/ asleep s (body_of s x))) /\
  NoDup (sp_sidx s) /\ NoDup (sp_didx s).
Proof.
  intros s x R. destruct (reach_ok s R) as [I _]. split; [apply (i_sidx _ _ I)|]. split; [|splits; apply I].
  rewrite (i_didx _ _ I). unfold asleep, body_of, root. destruct (sb_root (sp_b s (ss_body (sp_s s x)))) eqn:E.
  - split; [intros (_ & _ & D); discriminate D|]. intros [_ D]. destruct D. right. congruence.
  - split; [intros (A & B & _); split; auto; intros [D|D]; auto|]. intros [A B]. splits; auto.
Qed.
(** the shape list of a body is exactly its shapes *)
Theorem C21_shape_list_exact : forall s b, reachable s -> NoDup (sb_shapes (sp_b s b)) /\ forall x, In x (sb_shapes (sp_b s b)) <-> ss_in (sp_s s x) = true /\ body_of s x = b.
Proof. intros s b R. destruct (reach_ok s R) as [I _]. split; [apply (i_shp_nd _ _ I)|]. intros x. apply (i_shp _ _ I x b). Qed.
Theorem C21_shapes_added : forall s o s' x, reachable s -> legal s o -> exec s o = Some s' ->
  (ss_in (sp_s s' x) = true <->
    match o with
    | AddShape y => ss_in (sp_s s x) = true \/ x = y
    | RemoveShape y => ss_in (sp_s s x) = true /\ x <> y
    | _ => ss_in (sp_s s x) = true
    end) /\ body_of s' x = body_of s x.
Proof. intros s o s' c R L E. destruct (reach_ok s R) as [I _]. pose proof (exec_frame s o s' I L E) as F. split; [apply F|apply (fr_sb _ _ _ F)]. Qed.

(** ** C22 *)
(** only a step puts a body to sleep, and only a dynamic one that has been idle for the threshold *)
Theorem C22_only_idle_bodies_sleep : forall s o s' b, reachable s -> legal s o -> exec s o = Some s' -> ~ asleep s b -> asleep s' b ->
  exists dt moving th hits, o = Step dt moving (Some th) hits /\ kind s b = Dyn /\ moving b = false /\ tltb (tadd (sb_idle (sp_b s b)) dt) th = false.
Proof.
  intros s o s' b R L E A B. destruct (reach_ok s R) as [I P]. unfold asleep in *. destruct (sb_root (sp_b s' b)) as [q|] eqn:Q; [|congruence].
  assert (N : forall (Q' : forall dt mv thr hits, o <> Step dt mv thr hits), False).
  { intros Q'. destruct (fr_r _ _ _ (exec_frame s o s' I L E) Q' b) as [D|D]; unfold root in D; rewrite D in Q; [|discriminate]. apply A. congruence. }
  destruct o as [| | | | | | | | | |dt mv thr hits| |]; try (exfalso; apply N; intros; discriminate). cbn in E, L.
  destruct (step_ok s dt mv thr hits I L) as (s2 & E2 & _ & S). rewrite E in E2. injection E2 as <-.
  destruct (t_slept _ _ _ _ _ _ S b q Q) as [D|(th & -> & _ & K & _ & M & Z)]; [unfold root in D; exfalso; apply A; congruence|]. exists dt, mv, th, hits. auto.
Qed.
(** bodies joined by contacts or constraints sleep, and so wake, together *)
Theorem C22_sleep_together : forall s b o, reachable s -> linked s b o -> (asleep s b <-> asleep s o).
Proof. intros s b o R L. destruct (reach_ok s R) as [I _]. pose proof (linked_root s b o I L) as E. unfold root in E. unfold asleep. rewrite E. tauto. Qed.
(** Activate wakes the bodies that sleep together with its body, and no others *)
Theorem C22_activate_wakes_component : forall s b s', reachable s -> activate s b = Some s' ->
  ~ asleep s' b /\ (forall o, linked s b o -> ~ asleep s' o) /\
  (forall o, sb_root (sp_b s o) <> sb_root (sp_b s b) -> sb_root (sp_b s' o) = sb_root (sp_b s o)) /\
  (kind s b = Dyn -> sb_idle (sp_b s' b) = t0 /\ forall o, asleep s o -> ~ asleep s' o -> sb_idle (sp_b s' o) = t0).
Proof.
  intros s b s' R E. destruct (reach_ok s R) as [I _]. destruct (activate_ok s [] b I) as (s2 & E2 & I' & W & RT & ID & _). rewrite E in E2. injection E2 as <-.
  assert (Q : root s' b = None) by (apply (activate_root s [] b s'); auto). unfold asleep. fold (root s' b). splits.
  - congruence.
  - intros o Lo. fold (root s' o). rewrite RT. rewrite <- (linked_root s b o I Lo). destruct (root s b) as [r|]; [|congruence]. cbn [eqo]. rewrite Nat.eqb_refl. congruence.
  - intros o D. change (root s' o = root s o). change (root s o <> root s b) in D. rewrite RT. destruct (root s b) as [r|]; auto. destruct (root s o) as [q|]; cbn [eqo]; auto. destruct (Nat.eqb_spec q r); [congruence|auto].
  - intros K. destruct (ID K) as (D1 & D2 & _). split; [exact D1|]. intros o Ao Bo. change (root s o <> None) in Ao. change (~ root s' o <> None) in Bo. rewrite RT in Bo.
    destruct (root s b) as [r|] eqn:Rb; [|destruct (Bo Ao)]. apply (D2 o r); auto. destruct (root s o) as [q|]; [|congruence]. cbn [eqo] in Bo. destruct (Nat.eqb_spec q r) as [->|]; auto. destruct Bo. congruence.
Qed.
(** after a step with sleeping on, whoever is awake is joined to somebody who has not been idle long enough *)
Theorem C22_idle_components_sleep : forall s dt moving th hits s' b, reachable s -> legal s (Step dt moving (Some th) hits) -> step s dt moving (Some th) hits = Some s' ->
  in_space s' b -> kind s' b = Dyn -> ~ asleep s' b -> exists o, linked s' b o /\ tltb (sb_idle (sp_b s' o)) th = true.
Proof.
  intros s dt mv th hits s' b R L E A K N. destruct (reach_ok s R) as [I _]. destruct (step_ok s dt mv (Some th) hits I L) as (s2 & E2 & I' & S). rewrite E in E2. injection E2 as <-.
  destruct (t_awake _ _ _ _ _ _ S th b eq_refl) as (y & Y1 & Y2).
  - apply (i_dyn _ _ I'). unfold inb, root. splits; auto; [congruence|]. unfold asleep in N. destruct (sb_root (sp_b s' b)); auto. destruct N. discriminate.
  - exists y. split; [now apply conn_linked|exact Y2].
Qed.

(** ** C29 *)
(** the callbacks of every pair follow the protocol of SpecSpace.v: begin, then per step preSolve and postSolve at most once in this
    order, then separate; begin again only after separate; nothing but separate after a refusal *)
Theorem C29_protocol : forall s a b, reachable s -> contact (sp_log s) a b <> None.
Proof.
  intros s a b R C. destruct (reach_ok s R) as [I P]. assert (N : contact (sp_log s) a b = Some Apart); [|congruence]. apply (p_none _ P). intros x Lx. destruct (pair_eqb a b (sa_a (sp_a s x)) (sa_b (sp_a s x))) eqn:E; auto. exfalso.
  pose proof (p_live _ P x Lx) as A. unfold ctc in A. rewrite <- (contact_pair _ _ _ _ _ E), C in A. destruct (sa_state (sp_a s x)); cbn in A; try congruence; try tauto; destruct A; congruence.
Qed.
(** a pair that touches has begun, and had its preSolve call of this step unless it is refused *)
Theorem C29_touching : forall s dt moving thr hits s' h, reachable s -> legal s (Step dt moving thr hits) -> step s dt moving thr hits = Some s' ->
  In h hits -> collides s (h_a h) (h_b h) ->
  contact (sp_log s') (h_a h) (h_b h) = Some Refused \/ exists p, contact (sp_log s') (h_a h) (h_b h) = Some (Touching p) /\ p <> Fresh.
Proof.
  intros s dt mv thr hits s' h R L E Hh C. destruct (reach_ok s R) as [I P]. destruct (step_ok s dt mv thr hits I L) as (s2 & E2 & I' & S). rewrite E in E2. injection E2 as <-.
  assert (C0 := C29_protocol s' (h_a h) (h_b h)). apply (rejected_iff s h I) in C. destruct (t_touch _ _ _ _ _ _ S P h Hh C) as [T1 T2].
  destruct (contact (sp_log s') (h_a h) (h_b h)) as [[|p|]|] eqn:Q; auto; [congruence| |].
  - right. exists p. split; auto. congruence.
  - exfalso. apply C0; auto. destruct R as (s0 & S0 & R). exists s0. split; auto. apply reach_S with s (Step dt mv thr hits); auto.
Qed.
(** a pair that does not touch (any more) is separated by the end of the step, unless both bodies are static or asleep by then *)
Theorem C29_separated : forall s dt moving thr hits s' a b, reachable s -> legal s (Step dt moving thr hits) -> step s dt moving thr hits = Some s' ->
  (forall h, In h hits -> collides s (h_a h) (h_b h) -> same_pair a b (h_a h) (h_b h) = false) ->
  ~ (at_rest s (body_of s a) /\ at_rest s (body_of s b)) -> ~ (at_rest s' (body_of s a) /\ at_rest s' (body_of s b)) ->
  contact (sp_log s') a b = Some Apart.
Proof.
  intros s dt mv thr hits s' a b R L E NH M1 M2. destruct (reach_ok s R) as [I P]. destruct (step_ok s dt mv thr hits I L) as (s2 & E2 & I' & S). rewrite E in E2. injection E2 as <-.
  apply (t_apart _ _ _ _ _ _ S P a b).
  - intros h Hh Rh. apply NH; auto. now apply rejected_iff.
  - assert (D : forall y, at_rest s y \/ mover s y). { intros y. unfold at_rest, mover, asleep, SpecSpace.at_rest, root. destruct (kind s y); auto; destruct (sb_root (sp_b s y)) eqn:Q; try (left; right; unfold asleep; congruence); right; split; congruence. }
    destruct (D (body_of s a)) as [D1|D1]; auto. destruct (D (body_of s b)) as [D2|D2]; auto. destruct M1. auto.
  - exact M2.
Qed.
(** removing a shape ends its contacts *)
Theorem C29_removed : forall s x s' b, reachable s -> legal s (RemoveShape x) -> remove_shape s x = Some s' -> contact (sp_log s') x b = Some Apart.
Proof.
  intros s x s' b R L E. destruct (reach_ok s R) as [I P]. destruct (exec_ok s (RemoveShape x) I P L) as (s2 & E2 & I' & P'). cbn in E2. rewrite E in E2. injection E2 as <-.
  destruct (remove_shape_ok s x I L) as (s2 & E2 & _ & _ & _ & _ & _ & _ & _ & LV). rewrite E in E2. injection E2 as <-.
  apply (p_none _ P'). intros y Ly. destruct (LV y Ly) as [N1 N2]. destruct (pair_eqb x b _ _) eqn:Q; auto. apply pair_eqb_iff in Q as [[Q _]|[Q _]]; congruence.
Qed.

(** ** C73: arbiters in the pool are referenced from nowhere *)
Theorem C73_pool_unreferenced : forall s x, reachable s -> In x (sp_pool s) ->
  ~ In x (sp_arbs s) /\ ~ In x (sp_cache s) /\ (forall b, ~ In x (sb_arbs (sp_b s b))) /\ NoDup (sp_pool s).
Proof.
  intros s x R Hx. destruct (reach_ok s R) as [I _]. pose proof (i_pool _ _ I x (or_introl Hx)) as N. splits.
  - intros D. apply N. left. now apply (i_arbs _ _ I).
  - intros D. apply N. now left.
  - intros b D. apply N. right. now apply (i_thr _ _ I) in D.
  - apply I.
Qed.

(** ** C18: the arbiter lists of the bodies, as lists *)
(** an arbiter is in the list of each of its two bodies or of neither, and in no other list; never twice; the active arbiters are in *)
Theorem C18_arbiter_lists : forall s, reachable s ->
  (forall b, NoDup (sb_arbs (sp_b s b))) /\
  (forall x b, In x (sb_arbs (sp_b s b)) -> (b = sa_ba (sp_a s x) \/ b = sa_bb (sp_a s x)) /\ In x (sb_arbs (sp_b s (sa_ba (sp_a s x)))) /\ In x (sb_arbs (sp_b s (sa_bb (sp_a s x))))) /\
  (forall x, In x (sp_arbs s) -> In x (sb_arbs (sp_b s (sa_ba (sp_a s x)))) /\ In x (sb_arbs (sp_b s (sa_bb (sp_a s x))))) /\
  (forall x, In x (sb_arbs (sp_b s (sa_ba (sp_a s x)))) -> In x (sp_arbs s) \/ asleep s (sa_ba (sp_a s x)) \/ asleep s (sa_bb (sp_a s x))).
Proof.
  intros s R. destruct (reach_ok s R) as [I _]. splits; [apply I|apply I| |].
  - intros x Hx. destruct (in_dec Nat.eq_dec x (arbl s (ba s x))) as [D|D]; [now apply (i_thr _ _ I) in D|]. exfalso. apply (in_nil (a := x)). apply (i_pend _ _ I x). split; auto.
  - intros x Hx. destruct (i_thr_st _ _ I x Hx) as [D|[_ [D|D]]]; auto.
Qed.

End Props.

(** ** Concrete histories (idle times in milliseconds) *)
Local Instance time_nat : Time nat := { t0 := 0; tadd := Nat.add; tltb := Nat.ltb }.
Definition ex (s : Space nat) (o : Op nat) : Space nat := match exec s o with Some s' => s' | None => s end.
Definition exs (s : Space nat) (os : list (Op nat)) : Space nat := fold_left ex os s.
(** all but the quantified conditions are evaluated *)
Lemma ex_reach s o : reachable s -> legal s o -> exec s o <> None -> reachable (ex s o).
Proof. intros (s0 & S0 & R) L E. exists s0. split; auto. unfold ex. destruct (exec s o) as [s'|] eqn:Q; [|congruence]. now apply reach_S with s o. Qed.
Lemma init_reach kinds sh co sb : kinds sb = Stat -> reachable (space_init (T := nat) kinds sh co sb).
Proof. intros K. eexists. split; [exists kinds, sh, co, sb; split; [exact K|reflexivity]|constructor]. Qed.
Lemma can_step_b (s : Space nat) thr hits :
  forallb (fun h => ss_in (sp_s s (h_a h)) && ss_in (sp_s s (h_b h)) && (memb (h_a h) (sp_didx s) || memb (h_b h) (sp_didx s)) && (memb (h_new h) (sp_pool s) || (sp_na s <=? h_new h))) hits = true ->
  NoDup (map h_new hits) -> ForallOrdPairs (fun h h' => same_pair (h_a h) (h_b h) (h_a h') (h_b h') = false) hits ->
  match thr with None => sp_sleep s = [] | Some th => tltb t0 th = true end -> can_step s thr hits.
Proof.
  intros A B C D. constructor; auto; try (intros; subst; auto; fail). intros h Hh. rewrite forallb_forall in A. specialize (A h Hh). apply andb_true_iff in A as [A A4]. apply andb_true_iff in A as [A A3]. apply andb_true_iff in A as [A1 A2].
  splits; auto; [apply orb_true_iff in A3; rewrite !memb_In in A3; auto|]. apply orb_true_iff in A4. rewrite memb_In, Nat.leb_le in A4. auto.
Qed.
Ltac nd := repeat first [apply NoDup_nil|apply NoDup_cons; [cbn; intuition discriminate|]].
Ltac fop := repeat first [apply FOP_nil|apply FOP_cons; [repeat constructor|]].
Ltac leg := match goal with
  | |- legal _ (Step _ _ _ _) => apply can_step_b; [vm_compute; reflexivity|cbn; nd|fop|vm_compute; reflexivity]
  | |- legal _ (AddBody _) => split; [intros D; vm_compute in D; discriminate D|vm_compute; discriminate]
  | |- legal _ (AddShape _) => split; [vm_compute; reflexivity|first [left; vm_compute; reflexivity|right; vm_compute; reflexivity]]
  | |- legal _ (AddConstraint _) => split; [vm_compute; reflexivity|split; [vm_compute; discriminate|split; first [left; vm_compute; reflexivity|right; vm_compute; reflexivity]]]
  | |- legal _ (RemoveShape _) => vm_compute; reflexivity
  | |- legal _ _ => exact Logic.I end.
Ltac run := repeat (apply ex_reach; [|leg|vm_compute; discriminate]); apply init_reach; reflexivity.

(** body 0: the static body; 1 rests on it (shapes 10, 11), 2 is tied to 1 (constraint 0), 3 flies; 4 is kinematic *)
Definition demo0 : Space nat := space_init (fun b => match b with 0 => Stat | 4 => Kin | _ => Dyn end) (fun x => (x - 10, false)) (fun _ => (1, 2, true)) 0.
Definition demo1 : Space nat := exs demo0 [AddBody 1; AddBody 2; AddBody 3; AddBody 4; AddShape 10; AddShape 11; AddShape 12; AddShape 13; AddShape 14; AddConstraint 0].
Definition flies b := Nat.eqb b 3.
Definition demo2 : Space nat := exs demo1 [Step 5 flies (Some 5) [mkHit 10 11 7 true true false]].
Definition demo3 : Space nat := exs demo2 [Step 5 flies (Some 5) [mkHit 11 13 8 true true false]].
Lemma demo1_reach : reachable demo1. Proof. unfold demo1, exs. cbn [fold_left]. run. Qed.
Lemma demo2_reach : reachable demo2. Proof. unfold demo2, exs. cbn [fold_left]. apply ex_reach; [apply demo1_reach|leg|vm_compute; discriminate]. Qed.
Lemma demo3_reach : reachable demo3. Proof. unfold demo3, exs. cbn [fold_left]. apply ex_reach; [apply demo2_reach|leg|vm_compute; discriminate]. Qed.
(** 1 and 2 fall asleep together while 3 and 4 stay awake; EachBody sees all four; the next step, 3 hits 1 and wakes 1 and 2 *)
Example C20_C21_C22_nonvacuous :
  reachable demo2 /\ asleep demo2 1 /\ asleep demo2 2 /\ linked demo2 1 2 /\ ~ asleep demo2 3 /\ each_body demo2 = Some [3; 4; 1; 2] /\
  sp_sidx demo2 = [10; 11; 12] /\ sp_didx demo2 = [13; 14] /\ sb_cons (sp_b demo2 2) = [0] /\
  reachable demo3 /\ ~ asleep demo3 1 /\ ~ asleep demo3 2 /\ each_body demo3 = Some [3; 4; 1; 2] /\ sp_didx demo3 = [13; 14; 11; 12].
Proof.
  repeat match goal with |- _ /\ _ => split end; try apply demo2_reach; try apply demo3_reach; try (vm_compute; reflexivity); try (intros D; vm_compute in D; (discriminate D || apply D; reflexivity)); try (vm_compute; discriminate).
  apply linked_S with 1; [constructor|]. split; [vm_compute; reflexivity|split; [vm_compute; reflexivity|]]. right. exists 0. split; [vm_compute; reflexivity|left; split; vm_compute; reflexivity].
Qed.
Example C29_nonvacuous :
  sp_log demo3 = [EStep; EBegin 10 11 true; EPre 10 11 true false; EStep; EBegin 11 13 true; EPre 11 13 true false; EPost 11 13; EPost 10 11] /\
  contact (sp_log demo3) 11 13 = Some (Touching Posted) /\ contact (sp_log demo3) 11 14 = Some Apart.
Proof. vm_compute. auto. Qed.
(** C18, C72, C73: the demo runs; removing a shape puts its arbiters into the pool *)
Example C72_C73_nonvacuous : let s := ex demo3 (RemoveShape 11) in reachable s /\ sp_pool s = [7; 8] /\ sp_arbs s = [] /\ sb_arbs (sp_b demo3 1) <> [] /\ contact (sp_log s) 11 13 = Some Apart.
Proof. cbv zeta. split; [apply ex_reach; [apply demo3_reach|leg|vm_compute; discriminate]|]. vm_compute. repeat split; try reflexivity; discriminate. Qed.

(** ** C24: false.  Three bodies asleep on their own: SetGravity leaves the second asleep *)
Definition three : Space nat := exs (space_init (fun b => match b with 0 => Stat | _ => Dyn end) (fun x => (x, false)) (fun _ => (1, 2, true)) 0)
  [AddBody 1; AddBody 2; AddBody 3; Step 5 (fun _ => false) (Some 5) []].
Theorem C24_set_gravity_refuted : exists s s' : Space nat, reachable s /\ exec s SetGravity = Some s' /\ reachable s' /\ asleep s' 2 /\ asleep s 1 /\ ~ asleep s' 1.
Proof.
  assert (R : reachable three) by (unfold three, exs; cbn [fold_left]; run). exists three, (ex three SetGravity). split; [exact R|]. split; [vm_compute; reflexivity|]. split; [apply ex_reach; [exact R|leg|vm_compute; discriminate]|].
  repeat split; try (vm_compute; discriminate). intros D. apply D. vm_compute. reflexivity.
Qed.

(** ** C25: false.  SetType of a sleeping body with a shape panics: its shape is looked up in the wrong index *)
Theorem C25_set_type_asleep_refuted : exists (s : Space nat) b, reachable s /\ in_space s b /\ asleep s b /\ exec s (SetType b Kin) = None /\ exec s (SetType b Stat) = None.
Proof. exists demo2, 1. split; [apply demo2_reach|]. repeat split; try (vm_compute; reflexivity). vm_compute. discriminate. Qed.

(** ** C74: false.  postSolve without preSolve: a sleeping contact that is woken by a collision is solved in the same step *)
Theorem C74_post_without_pre_refuted : exists (s : Space nat) l1 l2 a b, reachable s /\ sp_log s = l1 ++ [EStep] ++ l2 ++ [EPost a b] /\
  ~ In EStep l2 /\ forall ok ign, ~ In (EPre a b ok ign) l2 /\ ~ In (EPre b a ok ign) l2.
Proof.
  exists demo3, [EStep; EBegin 10 11 true; EPre 10 11 true false], [EBegin 11 13 true; EPre 11 13 true false; EPost 11 13], 10, 11.
  split; [apply demo3_reach|]. split; [vm_compute; reflexivity|]. split; [cbn; intuition discriminate|]. intros ok ign. cbn. split; intuition discriminate.
Qed.

Print Assumptions C72_legal_calls_run. Print Assumptions C19_constraint_list_exact. Print Assumptions C19_constraints_added.
Print Assumptions C20_each_body_exact. Print Assumptions C20_one_list. Print Assumptions C20_bodies_added.
Print Assumptions C21_right_index. Print Assumptions C21_shape_list_exact. Print Assumptions C21_shapes_added.
Print Assumptions C22_only_idle_bodies_sleep. Print Assumptions C22_sleep_together. Print Assumptions C22_activate_wakes_component. Print Assumptions C22_idle_components_sleep.
Print Assumptions C29_protocol. Print Assumptions C29_touching. Print Assumptions C29_separated. Print Assumptions C29_removed.
Print Assumptions C73_pool_unreferenced. Print Assumptions C18_arbiter_lists. 
Print Assumptions C24_set_gravity_refuted. Print Assumptions C25_set_type_asleep_refuted. Print Assumptions C74_post_without_pre_refuted.
