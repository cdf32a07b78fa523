(** Corollaries in the words of the specification. *)
From Coq Require Import List Arith NArith Bool Lia Permutation Relations.
From Verif Require Import SpecSpace.
From Verif.Model Require Import HashSet Space.
From Verif.Proofs Require Import Util SpaceLib SpaceInv SpaceAct SpaceOps SpaceOps2 SpaceStep SpaceSleep SpaceComp SpaceComp2 SpaceStep2 SpaceStep3 SpaceProto SpaceHist SpaceReach.
Import ListNotations.

Lemma NoDup_app_intro {A} (l m : list A) : NoDup l -> NoDup m -> (forall x, In x l -> In x m -> False) -> NoDup (l ++ m).
Proof. induction 1 as [|a l N ND IH]; cbn; auto. intros Nm D. constructor; [|apply IH; eauto]. rewrite in_app_iff. intros [?|?]; eauto. Qed.
Section Top.
Context {T : Type} `{Time T}.
Notation Sp := (Space T).
Implicit Types (s : Sp) (b x c r : nat).

Lemma components_ok s : Core s [] -> forall l, NoDup l -> incl l (sp_sleep s) -> exists m, components s l = Some m /\ NoDup m /\ forall b, In b m <-> exists r, In r l /\ root s b = Some r.
Proof.
  intros I. induction l as [|r l IH]; intros ND HI; cbn [components].
  - exists []. split; [reflexivity|]. split; [constructor|]. intros b. split; [intros []|]. intros (r & [] & _).
  - apply NoDup_cons_iff in ND as [N1 N2]. destruct (comp_of s [] r I) as (c & KC & LEN & _); [apply HI; cbn; auto|]. rewrite (members_chain s c); auto; [|apply KC].
    destruct IH as (m & E & NM & IM); auto; [intros y Hy; apply HI; cbn; auto|]. rewrite E. exists (c ++ m). splits; auto.
    + apply NoDup_app_intro; auto; [apply KC|]. intros b B1 B2. apply (k_in _ _ _ KC) in B1. apply IM in B2 as (q & Q1 & Q2). congruence.
    + intros b. rewrite in_app_iff, (k_in _ _ _ KC), IM. split.
      * intros [E1|(q & Q1 & Q2)]; [exists r|exists q]; cbn; auto.
      * intros (q & [<-|Q1] & Q2); eauto.
Qed.
Lemma each_body_ok s : Core s [] -> exists l, each_body s = Some l /\ NoDup l /\ forall b, In b l <-> in_space s b.
Proof.
  intros I. unfold each_body. destruct (components_ok s I (sp_sleep s) (i_sleep_nd _ _ I) (incl_refl _)) as (m & E & NM & IM). rewrite E. eexists. splits; [reflexivity| |].
  - apply NoDup_app_intro; [apply I| |].
    + apply NoDup_app_intro; [apply I|auto|]. intros b B1 B2. apply (i_stat _ _ I) in B1. apply IM in B2 as (r & _ & B2). apply (i_root _ _ I) in B2. destruct B1, B2 as (_ & B2 & _). congruence.
    + intros b B1 B2. apply (i_dyn _ _ I) in B1. apply in_app_iff in B2 as [B2|B2]; [apply (i_stat _ _ I) in B2; tauto|]. apply IM in B2 as (r & _ & B2). destruct B1 as (_ & _ & B1). congruence.
  - intros b. rewrite !in_app_iff, (i_dyn _ _ I), (i_stat _ _ I), IM. unfold in_space, inb. split.
    + intros [B|[B|(r & _ & B)]]; try tauto. now apply (i_root _ _ I) in B.
    + intros B. destruct (kind s b) eqn:K; [|left; splits; auto; [discriminate|]|tauto].
      * destruct (root s b) as [r|] eqn:R; [right; right; exists r; split; auto; now apply (i_root _ _ I) in R|left; splits; auto; discriminate].
      * destruct (root s b) as [r|] eqn:R; auto. apply (i_root _ _ I) in R. destruct R as (_ & R & _). congruence.
Qed.
Lemma joined_sym s b o : joined s b o -> joined s o b.
Proof. intros (A & B & [(x & X1 & X2 & X3)|(c & C1 & C2)]); (split; [exact B|split; [exact A|]]); [left; exists x; auto|right; exists c; split; auto; tauto]. Qed.
Lemma linked_trans s b o p : linked s b o -> linked s o p -> linked s b p.
Proof. intros A B. induction B as [|o q p B IH J]; [exact A|]. apply linked_S with q; [exact (IH A)|exact J]. Qed.
Lemma linked_sym s b o : linked s b o -> linked s o b.
Proof. induction 1 as [|b o p A IH J]; [constructor|]. refine (linked_trans _ _ _ _ _ IH). apply linked_S with p; [constructor|]. now apply joined_sym. Qed.
Lemma conn_linked s b y : Core s [] -> conn s b y -> linked s b y.
Proof.
  intros I. induction 1 as [p q [A1 [A2 A3]]| | |]; [|constructor|now apply linked_sym|eapply linked_trans; eauto].
  econstructor; [constructor|]. split; [auto|split; [auto|]]. destruct (adj_inv s [] p q I A1) as [(x & Tx & [[-> ->]|[-> ->]])|(c & Hc & [[-> ->]|[-> ->]])].
  - destruct (i_thr _ _ I _ _ Tx) as (_ & T1 & T2). destruct (i_live _ _ I x (or_intror Tx)) as (_ & _ & _ & _ & NE). left. exists x. auto.
  - destruct (i_thr _ _ I _ _ Tx) as (_ & T1 & T2). destruct (i_live _ _ I x (or_intror Tx)) as (_ & _ & _ & _ & NE). left. exists x. auto.
  - right. exists c. auto.
  - right. exists c. auto.
Qed.
(** neighbours sleep in the same component *)
Lemma joined_root s b o : Core s [] -> joined s b o -> root s b = root s o.
Proof.
  intros I (Kb & Ko & J). assert (Q : forall r, (root s b = Some r -> root s o = Some r) /\ (root s o = Some r -> root s b = Some r)).
  { intros r. destruct J as [(x & X1 & X2 & NE)|(c & Hc & J)].
    - destruct (i_thr _ _ I _ _ X1) as (Y1 & Tx & _), (i_thr _ _ I _ _ X2) as (Y2 & _). destruct (i_thr_cl _ _ I x r Tx) as [C1 C2].
      destruct Y1 as [Y1|Y1], Y2 as [Y2|Y2]; try congruence; rewrite <- Y1, <- Y2 in *; split; intros E; [destruct (C1 E)|destruct (C2 E)|destruct (C2 E)|destruct (C1 E)]; congruence.
    - destruct (i_con_cl _ _ I c r Hc) as [C1 C2]. destruct J as [[J1 J2]|[J1 J2]]; rewrite J1, J2 in *; split; intros E; [destruct (C1 E)|destruct (C2 E)|destruct (C2 E)|destruct (C1 E)]; congruence. }
  destruct (root s b) as [r|] eqn:E1; [symmetry; now apply Q|]. destruct (root s o) as [r|] eqn:E2; auto. destruct (Q r) as [_ Q2]. specialize (Q2 eq_refl). congruence.
Qed.
Lemma linked_root s b o : Core s [] -> linked s b o -> root s b = root s o.
Proof. intros I. induction 1 as [|b o p A IH J]; auto. rewrite IH. now apply joined_root. Qed.
(** what a call changes in the sets and kinds *)
Record Framed (o : Op T) s s' : Prop := {
  fr_in : forall b, in_space s' b <-> match o with AddBody c => in_space s b \/ b = c | RemoveBody c => in_space s b /\ b <> c | _ => in_space s b end;
  fr_s : forall x, ss_in (sp_s s' x) = true <-> match o with AddShape y => ss_in (sp_s s x) = true \/ x = y | RemoveShape y => ss_in (sp_s s x) = true /\ x <> y | _ => ss_in (sp_s s x) = true end;
  fr_c : forall x, sc_in (sp_c s' x) = true <-> match o with AddConstraint y => sc_in (sp_c s x) = true \/ x = y | RemoveConstraint y => sc_in (sp_c s x) = true /\ x <> y | _ => sc_in (sp_c s x) = true end;
  fr_sb : forall x, body_of s' x = body_of s x;
  fr_cb : forall x, sc_a (sp_c s' x) = sc_a (sp_c s x) /\ sc_b (sp_c s' x) = sc_b (sp_c s x);
  fr_k : forall b, kind s' b = match o with SetType c k => if Nat.eqb b c then k else kind s b | _ => kind s b end;
  fr_r : (forall dt mv thr hits, o <> Step dt mv thr hits) -> forall b, root s' b = root s b \/ root s' b = None }.
Lemma wakes_framed o s s' : match o with Activate _ | ActivateStatic _ _ | SetGravity => True | _ => False end -> Wakes s s' -> Framed o s s'.
Proof.
  intros Q W. destruct o; try contradiction; (constructor; [intros b0; unfold in_space; now rewrite (y_in _ _ W)|intros x; now rewrite (y_s _ _ W)|intros x; now rewrite (y_c _ _ W)|intros x; unfold body_of; now rewrite (y_s _ _ W)|intros x; now rewrite (y_c _ _ W)|apply W|intros _; apply W]).
Qed.
Lemma upd_in {A} (f : nat -> A) (g : A -> bool) x y v : g (upd f x v y) = if Nat.eqb y x then g v else g (f y).
Proof. rewrite upd_spec. now destruct (Nat.eqb y x). Qed.
Lemma activate_static_wakes s b f s' : Core s [] -> activate_static s b f = Some s' -> Wakes s s'.
Proof.
  intros I. unfold activate_static. generalize (sb_arbs (bod s b)). intros l E. assert (G : forall l s, Core s [] -> forall s', each (fun s x => let arb := sp_a s x in if match f with None => true | Some sh => Nat.eqb sh (sa_a arb) || Nat.eqb sh (sa_b arb) end then activate s (arb_other s b x) else Some s) s l = Some s' -> Wakes s s').
  { clear. induction l as [|x l IH]; intros s I s' E; cbn [each] in E; [injection E as <-; apply wakes_refl|]. cbv zeta in E.
    set (g := match f with None => true | Some _ => _ end) in E. destruct g.
    - destruct (activate_ok s [] (arb_other s b x) I) as (s1 & E1 & I1 & W & _). rewrite E1 in E. eapply wakes_trans; [exact W|]. exact (IH s1 I1 s' E).
    - exact (IH s I s' E). }
  exact (G l s I s' E).
Qed.
Lemma exec_frame s o s' : Core s [] -> legal s o -> exec s o = Some s' -> Framed o s s'.
Proof.
  intros I L E. destruct o as [b|b|x|x|c|c|b k|b|b f| |dt mv thr hits|x v|c v]; cbn [exec legal] in *.
  - destruct L as [L1 L2]. destruct (add_body_ok s b I L1 L2) as (s2 & E2 & _ & F1 & F2 & F3). rewrite E in E2. injection E2 as <-. unfold add_body in E. injection E as E.
    assert (Q : sp_s s' = sp_s s /\ sp_c s' = sp_c s) by (subst s'; destruct (is_stat s b); auto). destruct Q as [Q1 Q2].
    constructor; auto; try (intros y; unfold body_of; rewrite ?Q1, ?Q2; tauto).
  - destruct L as (L1 & L2 & L3). destruct (remove_body_ok s b I L1 L2 L3) as (s1 & s2 & E1 & E2 & _ & F1 & F2 & F3). rewrite E in E2. injection E2 as <-. destruct (activate_ok s [] b I) as (s2 & E2 & _ & W & _). rewrite E1 in E2. injection E2 as <-.
    unfold remove_body in E. rewrite E1 in E. injection E as E. assert (Q : sp_s s' = sp_s s1 /\ sp_c s' = sp_c s1) by (subst s'; destruct (is_stat s1 b); auto). destruct Q as [Q1 Q2]. rewrite (y_s _ _ W) in Q1. rewrite (y_c _ _ W) in Q2.
    constructor; auto; try (intros y; unfold body_of; rewrite ?Q1, ?Q2; tauto). intros _ y. rewrite F3. apply W.
  - destruct L as (L1 & L2). destruct (add_shape_ok s x I L1 L2) as (s2 & E2 & _ & F1 & F2 & F3 & F4 & F5 & F6 & F7). rewrite E in E2. injection E2 as <-.
    constructor; auto.
    + intros y. unfold in_space. now rewrite F1.
    + intros y. rewrite F3, upd_spec. destruct (Nat.eqb_spec y x); cbn; tauto.
    + intros y. now rewrite F6.
    + intros y. unfold body_of. rewrite F3, upd_spec. destruct (Nat.eqb_spec y x); cbn; congruence.
    + intros y. now rewrite F6.
  - destruct (remove_shape_ok s x I L) as (s2 & E2 & _ & F1 & F2 & F3 & F4 & F5 & F6 & F7). rewrite E in E2. injection E2 as <-.
    constructor; auto.
    + intros y. unfold in_space. now rewrite F1.
    + intros y. rewrite F3, upd_spec. destruct (Nat.eqb_spec y x); cbn; [|tauto]. split; [discriminate|]. tauto.
    + intros y. now rewrite F6.
    + intros y. unfold body_of. rewrite F3, upd_spec. destruct (Nat.eqb_spec y x); cbn; congruence.
    + intros y. now rewrite F6.
  - destruct L as (L1 & L2 & L3 & L4). destruct (add_con_ok s c I L1 L2 L3 L4) as (s2 & E2 & _ & F1 & F2 & F3 & F4 & F5 & _). rewrite E in E2. injection E2 as <-.
    constructor; auto.
    + intros y. unfold in_space. now rewrite F1.
    + intros y. now rewrite F4.
    + intros y. rewrite F3, upd_spec. destruct (Nat.eqb_spec y c); cbn; tauto.
    + intros y. unfold body_of. now rewrite F4.
    + intros y. rewrite F3, upd_spec. destruct (Nat.eqb_spec y c) as [->|]; cbn; tauto.
  - destruct (remove_con_ok s c I L) as (s2 & E2 & _ & F1 & F2 & F3 & F4 & F5 & _). rewrite E in E2. injection E2 as <-.
    constructor; auto.
    + intros y. unfold in_space. now rewrite F1.
    + intros y. now rewrite F4.
    + intros y. rewrite F3, upd_spec. destruct (Nat.eqb_spec y c); cbn; [|tauto]. split; [discriminate|]. tauto.
    + intros y. unfold body_of. now rewrite F4.
    + intros y. rewrite F3, upd_spec. destruct (Nat.eqb_spec y c) as [->|]; cbn; tauto.
  - destruct L as (L1 & L2 & L3). destruct (set_type_ok s b k I L1 L2 L3) as (s2 & E2 & _ & F1 & F2 & F3 & F4 & F5 & _). rewrite E in E2. injection E2 as <-.
    constructor; auto; try (intros y; unfold in_space, body_of; rewrite ?F1, ?F4, ?F5; tauto).
  - destruct (activate_ok s [] b I) as (s2 & E2 & _ & W & _). rewrite E in E2. injection E2 as <-. now apply wakes_framed.
  - apply wakes_framed; [exact Logic.I|]. exact (activate_static_wakes s b f s' I E).
  - destruct (gravity_run (length (sp_sleep s)) 0 (sp_sleep s) s I) as (s2 & E2 & _ & W). change (set_gravity s) with (gravity_loop (length (sp_sleep s)) 0 (sp_sleep s) s) in E. rewrite E in E2. injection E2 as <-. now apply wakes_framed.
  - destruct (step_ok s dt mv thr hits I L) as (s2 & E2 & _ & S). rewrite E in E2. injection E2 as <-.
    constructor; try (intros y; unfold in_space, body_of; rewrite ?(t_in _ _ _ _ _ _ S), ?(t_s _ _ _ _ _ _ S), ?(t_c _ _ _ _ _ _ S); tauto).
    + apply S.
    + intros Q. destruct (Q dt mv thr hits eq_refl).
  - destruct (set_sensor_ok s x v I) as (s1 & _ & _ & W & E2 & _). rewrite E in E2. injection E2 as ->. constructor; cbn [sp_b sp_s sp_c set_s]; try (intros y; unfold in_space, body_of, kind; cbn [sp_b sp_s sp_c set_s]; rewrite ?(y_in _ _ W), ?(y_c _ _ W), ?(y_s _ _ W); try tauto).
    + rewrite upd_spec. destruct (Nat.eqb_spec y x) as [->|]; cbn; tauto.
    + rewrite upd_spec. destruct (Nat.eqb_spec y x) as [->|]; cbn; reflexivity.
    + apply W.
    + intros z. apply W.
  - destruct (set_collide_ok s c v I) as (s1 & _ & _ & W & E2 & _). rewrite E in E2. injection E2 as ->. constructor; cbn [sp_b sp_s sp_c set_c]; try (intros y; unfold in_space, body_of, kind; cbn [sp_b sp_s sp_c set_c]; rewrite ?(y_in _ _ W), ?(y_c _ _ W), ?(y_s _ _ W); try tauto).
    + rewrite upd_spec. destruct (Nat.eqb_spec y c) as [->|]; cbn; tauto.
    + rewrite upd_spec. destruct (Nat.eqb_spec y c) as [->|]; cbn; tauto.
    + apply W.
    + intros z. apply W.
Qed.
Lemma rejected_iff s h : Core s [] -> (rejected s h = false <-> collides s (h_a h) (h_b h)).
Proof.
  intros I. unfold rejected, reject_constraints, collides, body_of. set (A := ss_body (sp_s s (h_a h))). set (B := ss_body (sp_s s (h_b h))). rewrite orb_false_iff, Nat.eqb_neq.
  split; intros [N R]; split; auto.
  - intros c Hc Cc E. assert (X : existsb (fun c => negb (sc_collide (sp_c s c)) && (Nat.eqb (sc_a (sp_c s c)) A && Nat.eqb (sc_b (sp_c s c)) B || Nat.eqb (sc_a (sp_c s c)) B && Nat.eqb (sc_b (sp_c s c)) A)) (sb_cons (bod s A)) = true); [|congruence].
    apply existsb_exists. exists c. split; [apply (i_con _ _ I c A); split; auto; tauto|]. rewrite Cc. cbn [negb andb]. apply orb_true_iff. rewrite !andb_true_iff, !Nat.eqb_eq. tauto.
  - destruct (existsb _ _) eqn:X; auto. apply existsb_exists in X as (c & Hc & X). apply (i_con _ _ I c A) in Hc as [Hc _]. apply andb_true_iff in X as [X1 X2]. exfalso. apply (R c Hc).
    + now destruct (sc_collide (sp_c s c)).
    + apply orb_true_iff in X2. rewrite !andb_true_iff, !Nat.eqb_eq in X2. tauto.
Qed.
End Top.
