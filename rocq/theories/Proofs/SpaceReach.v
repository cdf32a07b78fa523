(** Histories of calls. *)
From Coq Require Import List Arith NArith Bool Lia Permutation Relations.
From Verif Require Import SpecSpace.
From Verif.Model Require Import HashSet Space.
From Verif.Proofs Require Import Util SpaceLib SpaceInv SpaceAct SpaceOps SpaceOps2 SpaceStep SpaceSleep SpaceComp SpaceComp2 SpaceStep2 SpaceStep3 SpaceProto SpaceHist.
Import ListNotations.

Section Reach.
Context {T : Type} `{Time T}.
Notation Sp := (Space T).
Implicit Types (s : Sp) (b x c r : nat).

Lemma each_calm (f : Sp -> nat -> option Sp) l : (forall s x s', f s x = Some s' -> Calm s s') -> forall s s', each f s l = Some s' -> Calm s s'.
Proof.
  intros F. induction l as [|x l IH]; intros s s'; cbn [each]; [intros [= <-]; apply calm_refl|]. destruct (f s x) as [s1|] eqn:E; [|discriminate]. intros E'. eapply calm_trans; [eapply F|eapply IH]; eauto.
Qed.
Lemma activate_calm s b s' : Core s [] -> activate s b = Some s' -> Calm s s' /\ Core s' [].
Proof. intros I E. destruct (activate_ok s [] b I) as (s1 & E1 & I1 & W & _). rewrite E in E1. injection E1 as <-. split; auto. apply calm_quiet, quiet_wakes, W. Qed.
Lemma idleonly_calm s s' : IdleOnly s s' -> Calm s s'.
Proof. intros [B L A G]. destruct L. apply calm_same; auto. intros y. unfold arbl. destruct (B y) as [->| ->]; reflexivity. Qed.
Lemma add_body_calm s b s' : add_body s b = Some s' -> Calm s s'.
Proof. unfold add_body. intros [= <-]. apply calm_same; destruct (is_stat s b); try reflexivity; vw. Qed.
Lemma remove_body_calm s b s' : Core s [] -> remove_body s b = Some s' -> Calm s s'.
Proof.
  intros I. unfold remove_body. destruct (activate s b) as [s1|] eqn:E; [|discriminate]. destruct (activate_calm s b s1 I E) as [C _]. intros [= <-]. eapply calm_trans; [exact C|]. apply calm_same; destruct (is_stat s1 b); try reflexivity; vw.
Qed.
Lemma add_shape_calm s x s' : Core s [] -> add_shape s x = Some s' -> Calm s s'.
Proof.
  intros I. unfold add_shape. set (b := ss_body (sp_s s x)).
  assert (Q : forall s1, (if is_stat s b then Some s else activate s b) = Some s1 -> Calm s s1). { intros s1. destruct (is_stat s b); [intros [= <-]; apply calm_refl|]. intros E. now apply activate_calm in E. }
  destruct (if is_stat s b then Some s else activate s b) as [s1|]; [|discriminate]. specialize (Q s1 eq_refl). set (s2 := set_s _ _).
  intros E. eapply calm_trans; [exact Q|]. eapply calm_trans; [apply (calm_same s1 s2); try reflexivity; unfold s2; vw|].
  destruct (is_stat s2 b); destruct (memb _ _); try discriminate; injection E as <-; apply calm_same; reflexivity.
Qed.
Lemma add_con_calm s c s' : Core s [] -> add_con s c = Some s' -> Calm s s'.
Proof.
  intros I. unfold add_con. destruct (activate s _) as [s1|] eqn:E1; [|discriminate]. destruct (activate_calm _ _ _ I E1) as [C1 I1]. destruct (activate s1 _) as [s2|] eqn:E2; [|discriminate]. destruct (activate_calm _ _ _ I1 E2) as [C2 I2].
  intros [= <-]. eapply calm_trans; [exact C1|]. eapply calm_trans; [exact C2|]. apply calm_same; try reflexivity. vw.
Qed.
Lemma brc_calm s b c s' : body_remove_con s b c = Some s' -> Calm s s'.
Proof. unfold body_remove_con. destruct (memb _ _); [|discriminate]. intros [= <-]. apply calm_same; try reflexivity. vw. Qed.
Lemma remove_con_calm s c s' : Core s [] -> remove_con s c = Some s' -> Calm s s'.
Proof.
  intros I. unfold remove_con. destruct (activate s _) as [s1|] eqn:E1; [|discriminate]. destruct (activate_calm _ _ _ I E1) as [C1 I1]. destruct (activate s1 _) as [s2|] eqn:E2; [|discriminate]. destruct (activate_calm _ _ _ I1 E2) as [C2 I2].
  destruct (body_remove_con _ _ _) as [s3|] eqn:E3; [|discriminate]. destruct (body_remove_con s3 _ _) as [s4|] eqn:E4; [|discriminate].
  intros [= <-]. eapply calm_trans; [exact C1|]. eapply calm_trans; [exact C2|]. eapply calm_trans; [|eapply calm_trans; [eapply brc_calm; exact E3|eapply calm_trans; [eapply brc_calm; exact E4|apply calm_same; reflexivity]]]. apply calm_same; reflexivity.
Qed.
Lemma set_type_calm s b k s' : root s b = None -> set_type s b k = Some s' -> Calm s s'.
Proof.
  intros R. unfold set_type. destruct (kind_eqb (kind s b) k); [intros [= <-]; apply calm_refl|]. set (s1 := upd_b s b _).
  assert (C1 : Calm s s1) by (apply calm_same; try reflexivity; unfold s1; vw). assert (R1 : root s1 b = None) by (unfold s1, root; ss; rewrite upd_same; exact R).
  assert (ACT : forall t t', root t b = None -> activate t b = Some t' -> Calm t t' /\ root t' b = None).
  { intros t t' Rt E. destruct (activate_awake t b Rt) as (t2 & E2 & IO & _). rewrite E in E2. injection E2 as <-. split; [now apply idleonly_calm|]. rewrite <- Rt. apply (v_root _ _ (idleonly_same _ _ IO)). }
  assert (Q2 : forall t, (if kind_eqb k Dyn then activate s1 b else Some s1) = Some t -> Calm s1 t /\ root t b = None) by (intros t; destruct (kind_eqb k Dyn); [now apply ACT|intros [= <-]; split; auto; apply calm_refl]).
  destruct (if kind_eqb k Dyn then activate s1 b else Some s1) as [s2|]; [|discriminate]. destruct (Q2 s2 eq_refl) as [C2 R2]. destruct (negb _); [intros [= <-]; eapply calm_trans; eauto|].
  assert (Q3 : forall t, (if kind_eqb (kind s b) Stat then Some s2 else activate s2 b) = Some t -> Calm s2 t) by (intros t; destruct (kind_eqb (kind s b) Stat); [intros [= <-]; apply calm_refl|now apply ACT]).
  destruct (if kind_eqb (kind s b) Stat then Some s2 else activate s2 b) as [s3|]; [|discriminate]. specialize (Q3 s3 eq_refl).
  intros E. eapply calm_trans; [exact C1|]. eapply calm_trans; [exact C2|]. eapply calm_trans; [exact Q3|]. eapply calm_trans; [|eapply each_calm; [|exact E]].
  - destruct (kind_eqb (kind s b) Stat); [|destruct (kind_eqb k Stat)]; apply calm_same; reflexivity.
  - intros t x t'. cbv beta. destruct (kind_eqb (kind s b) Stat), (kind_eqb k Stat); repeat (destruct (memb _ _); try discriminate); intros [= <-]; apply calm_same; reflexivity.
Qed.
Lemma activate_static_calm s b f s' : Core s [] -> activate_static s b f = Some s' -> Calm s s' /\ Core s' [].
Proof.
  intros I. unfold activate_static. change (sb_arbs (bod s b)) with (arbl s b). generalize (arbl s b). intros l. revert s I. induction l as [|x l IH]; intros s I; cbn [each]; [intros [= <-]; split; auto; apply calm_refl|].
  set (g := match f with None => true | Some _ => _ end). destruct (if g then _ else Some s) as [s1|] eqn:E; [|discriminate]. intros E'.
  assert (Q : Calm s s1 /\ Core s1 []) by (destruct g; [now apply activate_calm in E|injection E as <-; split; auto; apply calm_refl]). destruct Q as [C1 I1]. destruct (IH s1 I1 E') as [C2 I2]. split; auto. eapply calm_trans; eauto.
Qed.

(** ** Removing a shape *)
Lemma filter_one_eff s body sh x s' : Core s [] -> In x (sp_cache s) -> filter_one body sh s x = Some s' ->
  s' = s \/ ((forall y, y <> x -> sp_a s' y = sp_a s y) /\ (forall y, sa_a (sp_a s' y) = sa_a (sp_a s y) /\ sa_b (sp_a s' y) = sa_b (sp_a s y)) /\ sp_stamp s' = sp_stamp s /\ sp_arbs s' = del x (sp_arbs s) /\ sp_cache s' = del x (sp_cache s) /\ (forall y, threaded s' y <-> threaded s y /\ y <> x) /\
    sp_log s' = sp_log s ++ (if astate_eqb (sa_state (sp_a s x)) ACached then [] else [ESep (sa_a (sp_a s x)) (sa_b (sp_a s x))])).
Proof.
  intros I XC. unfold filter_one. destruct (_ || _) eqn:E; [|intros [= <-]; auto]. set (s1 := if negb _ then _ else s).
  assert (V1 : SameB s s1 /\ SameA s s1 /\ SameL s s1 /\ (forall y, sa_stamp (sp_a s1 y) = sa_stamp (sp_a s y)) /\ (forall y, sp_b s1 y = sp_b s y) /\ (forall y, y <> x -> sp_a s1 y = sp_a s y) /\ sp_log s1 = sp_log s ++ (if astate_eqb (sa_state (sp_a s x)) ACached then [] else [ESep (sa_a (sp_a s x)) (sa_b (sp_a s x))])).
  { unfold s1. destruct (astate_eqb (sa_state (sp_a s x)) ACached); cbn [negb].
    - rewrite app_nil_r. splits; auto; [constructor; reflexivity| |constructor; reflexivity]; intros y; splits; reflexivity.
    - splits; auto; [constructor; reflexivity| |constructor; reflexivity| |]; intros y; unfold ba, bb; ss; rewrite ?upd_spec; destruct (Nat.eqb_spec y x); subst; splits; try reflexivity. tauto. }
  destruct V1 as (V1 & V2 & V3 & V4 & V5 & V6 & V7). destruct (unthread_rest s1 x) as (U1 & U2 & U3 & U4).
  assert (I1 : Core s1 []). { apply (core_ext s); auto. intros y _. left. unfold idle. now rewrite V5. }
  assert (UA := fun y => unthread_arbl s1 [] x y I1). intros [= <-]. right. set (s' := set_pool _ _). assert (Ea : sp_a s' = sp_a s1) by exact U3. splits.
  - intros y Ny. rewrite Ea. auto.
  - intros y. rewrite Ea. destruct (V2 y) as (? & ? & _). auto.
  - transitivity (sp_stamp s1); [apply U2|apply V3].
  - unfold s'. ss. now rewrite ?(v_arbs _ _ U2), (v_arbs _ _ V3).
  - unfold s'. ss. now rewrite ?(v_cache _ _ U2), (v_cache _ _ V3).
  - intros y. unfold threaded. assert (B : ba s' y = ba s y) by (unfold ba; rewrite Ea; apply V2). rewrite B. change (arbl s' (ba s y)) with (arbl (unthread s1 x) (ba s y)). rewrite UA, del_In by apply I1. rewrite (v_arbl _ _ V1). tauto.
  - rewrite <- V7. exact U4.
Qed.
Lemma filter_proto s body sh x s' : Core s [] -> In x (sp_cache s) -> filter_one body sh s x = Some s' -> Proto s -> Proto s'.
Proof.
  intros I XC E PR. destruct (filter_one_eff s body sh x s' I XC E) as [->|(A1 & A2 & Es & Eb & Ec & TH & Lg)]; auto.
  assert (LX : live s x) by (left; auto). assert (LV : forall y, live s' y <-> live s y /\ y <> x). { intros y. unfold live. rewrite TH, Ec, del_In by apply I. tauto. }
  assert (OT : forall a b, pair_eqb a b (sa_a (sp_a s x)) (sa_b (sp_a s x)) = false -> contact (sp_log s') a b = contact (sp_log s) a b).
  { intros a b N. rewrite Lg. destruct (astate_eqb _ _); [now rewrite app_nil_r|]. now apply contact_other. }
  assert (CX : contact (sp_log s') (sa_a (sp_a s x)) (sa_b (sp_a s x)) = Some Apart).
  { assert (AG := p_live _ PR x LX). rewrite Lg. unfold ctc in AG. destruct (sa_state (sp_a s x)); cbn [astate_eqb] in *; rewrite ?app_nil_r; cbn [agree] in AG; auto; try tauto; rewrite contact_snoc; try (destruct AG as (p & ->)); try rewrite AG; cbn; rewrite same_pair_eqb, pair_eqb_refl; reflexivity. }
  constructor.
  - intros y Ly. apply LV in Ly as [Ly Ny]. rewrite A1 by auto. unfold ctc. rewrite A1 by auto. rewrite OT; [now apply PR|]. destruct (pair_eqb _ _ _ _) eqn:EP; auto. exfalso. apply Ny. now apply (i_uniq _ _ I).
  - intros a b N. destruct (pair_eqb a b (sa_a (sp_a s x)) (sa_b (sp_a s x))) eqn:EP; [rewrite (contact_pair _ _ _ _ _ EP); auto|]. rewrite OT by auto. apply PR. intros y Ly. destruct (Nat.eq_dec y x) as [->|Ny]; auto. specialize (N y (proj2 (LV y) (conj Ly Ny))). now rewrite A1 in N.
  - intros y. rewrite Eb, TH, del_In by apply I. intros D. assert (Ny : y <> x) by tauto. rewrite A1 by auto. apply PR. tauto.
  - intros y. rewrite Eb, Ec, !del_In by apply I. intros [D Ny] F. rewrite A1 in F by auto. split; auto. now apply PR.
  - intros y Ly. apply LV in Ly as [Ly Ny]. rewrite Es, A1 by auto. now apply PR.
Qed.
Lemma each_filter_proto body sh m : forall s s', Core s [] -> NoDup m -> incl m (sp_cache s) -> each (filter_one body sh) s m = Some s' -> Proto s -> Proto s'.
Proof.
  induction m as [|x m IH]; intros s s' I ND HI; cbn [each]; [intros [= <-]; auto|]. apply NoDup_cons_iff in ND as [N1 N2]. assert (X : In x (sp_cache s)) by (apply HI; cbn; auto).
  destruct (filter_one_ok s body sh x I X) as (s1 & E1 & I1 & _ & _ & _ & _ & _ & _ & K & _). rewrite E1. intros E PR. apply (IH s1 s'); auto; [|exact (filter_proto s body sh x s1 I X E1 PR)]. intros y Hy. apply K; [apply HI; cbn; auto|congruence].
Qed.
Lemma remove_shape_proto s sh s' : Core s [] -> Core s' [] -> remove_shape s sh = Some s' -> Proto s -> Proto s'.
Proof.
  intros I I' E PR. unfold remove_shape in E. set (b := ss_body (sp_s s sh)) in *.
  assert (ACT : forall s1, (if is_stat s b then activate_static s b (Some sh) else activate s b) = Some s1 -> Calm s s1 /\ Core s1 []) by (intros s1; destruct (is_stat s b); [now apply activate_static_calm|now apply activate_calm]).
  destruct (if is_stat s b then activate_static s b (Some sh) else activate s b) as [s1|]; [|discriminate]. destruct (ACT s1 eq_refl) as [C1 I1]. assert (PR1 := calm_proto s s1 [] C1 I I1 PR).
  set (l := swap_del sh (sb_shapes (bod s1 b))) in *. change (upd_b s1 b (b_shapes (bod s1 b) l)) with (shp s1 b l) in E. rewrite each_filter_shp in E. change (sp_cache (shp s1 b l)) with (sp_cache s1) in E.
  destruct (each_filter_ok b sh (sp_cache s1) s1 I1) as (s2 & E2 & I2 & _); [apply I1|apply incl_refl|]. rewrite E2 in E. assert (PR2 := each_filter_proto b sh _ s1 s2 I1 (i_cache_nd _ _ I1) (incl_refl _) E2 PR1).
  apply (calm_proto s2 s' []); auto. eapply calm_trans; [apply (calm_same s2 (shp s2 b l)); try reflexivity; unfold shp; vw|].
  destruct (is_stat (shp s2 b l) b); destruct (memb _ _); try discriminate; injection E as <-; apply calm_same; reflexivity.
Qed.

(** ** Histories *)
Lemma gravity_run n : forall k arr s, Core s [] -> exists s', gravity_loop n k arr s = Some s' /\ Core s' [] /\ Wakes s s'.
Proof.
  induction n as [|n IH]; intros k arr s I; cbn [gravity_loop]; [exists s; splits; auto; apply wakes_refl|]. destruct (activate_ok s [] (nth k arr 0) I) as (s1 & E & I1 & W & _). rewrite E.
  destruct (IH (S k) (backing arr (sp_sleep s1)) s1 I1) as (s' & E' & I' & W'). exists s'. splits; auto. eapply wakes_trans; eauto.
Qed.
Lemma activate_static_run s b f : Core s [] -> exists s', activate_static s b f = Some s'.
Proof.
  intros I. unfold activate_static. change (sb_arbs (bod s b)) with (arbl s b). generalize (arbl s b). intros l. revert s I. induction l as [|x l IH]; intros s I; cbn [each]; [eauto|].
  set (g := match f with None => true | Some _ => _ end). assert (Q : exists s1, (if g then activate s (arb_other s b x) else Some s) = Some s1 /\ Core s1 []).
  { destruct g; [|eauto]. destruct (activate_ok s [] (arb_other s b x) I) as (s1 & E & I1 & _). eauto. }
  destruct Q as (s1 & -> & I1). auto.
Qed.
(** changing only the sensor flag of shapes and the collide flag of constraints *)
Lemma core_flags s fs fc P : (forall x, ss_in (fs x) = ss_in (sp_s s x) /\ ss_body (fs x) = ss_body (sp_s s x)) ->
  (forall c, sc_in (fc c) = sc_in (sp_c s c) /\ sc_a (fc c) = sc_a (sp_c s c) /\ sc_b (fc c) = sc_b (sp_c s c)) -> Core s P -> Core (set_c (set_s s fs) fc) P.
Proof.
  intros FS FC I. set (s' := set_c (set_s s fs) fc).
  assert (S1 : forall x, ss_in (sp_s s' x) = ss_in (sp_s s x)) by apply FS. assert (S2 : forall x, ss_body (sp_s s' x) = ss_body (sp_s s x)) by apply FS.
  assert (C1 : forall x, sc_in (sp_c s' x) = sc_in (sp_c s x)) by apply FC. assert (C2 : forall x, sc_a (sp_c s' x) = sc_a (sp_c s x)) by apply FC. assert (C3 : forall x, sc_b (sp_c s' x) = sc_b (sp_c s x)) by apply FC.
  constructor; try solve [apply I].
  - intros b r E. destruct (i_root _ _ I b r E) as (X1 & X2 & X3 & l & X4 & X5). splits; auto. exists l. split; auto. eapply chain_ext; [|exact X4]. reflexivity.
  - intros r Hr. destruct (i_comp _ _ I r Hr) as (l & X1 & X2 & X3). exists l. splits; auto. eapply chain_ext; [|exact X1]. reflexivity.
  - intros x b. rewrite S1, S2. apply (i_shp _ _ I).
  - intros x. rewrite S1, S2. apply (i_didx _ _ I).
  - intros x. rewrite S1, S2. apply (i_sidx _ _ I).
  - intros x. rewrite S1, S2. apply (i_shp_body _ _ I).
  - intros c b. rewrite C1, C2, C3. apply (i_con _ _ I).
  - intros c. rewrite C1, C2, C3. apply (i_con_ok _ _ I).
  - intros c. rewrite C1, C2, C3. apply (i_cons _ _ I).
  - intros c r. rewrite C1, C2, C3. apply (i_con_cl _ _ I).
  - intros x L. rewrite !S1, !S2. apply (i_live _ _ I x L).
Qed.
Lemma set_sensor_ok s x v : Core s [] -> exists s1, activate s (ss_body (sp_s s x)) = Some s1 /\ Core s1 [] /\ Wakes s s1 /\
  set_sensor s x v = Some (set_s s1 (upd (sp_s s1) x (mkSS (ss_body (sp_s s x)) (ss_in (sp_s s x)) v))) /\ Core (set_s s1 (upd (sp_s s1) x (mkSS (ss_body (sp_s s x)) (ss_in (sp_s s x)) v))) [].
Proof.
  intros I. unfold set_sensor. destruct (activate_ok s [] (ss_body (sp_s s x)) I) as (s1 & E & I1 & W & _). rewrite E. exists s1. rewrite (y_s _ _ W). splits; auto.
  apply (core_flags s1 (upd (sp_s s) x (mkSS (ss_body (sp_s s x)) (ss_in (sp_s s x)) v)) (sp_c s1) []) in I1; [exact I1| |intros; splits; reflexivity]. intros y. rewrite (y_s _ _ W), upd_spec. destruct (Nat.eqb_spec y x) as [->|]; auto.
Qed.
Lemma activate_bodies_ok s c : Core s [] -> exists s1, activate_bodies s c = Some s1 /\ Core s1 [] /\ Wakes s s1.
Proof.
  intros I. unfold activate_bodies. destruct (activate_ok s [] (sc_a (sp_c s c)) I) as (s1 & E & I1 & W & _). rewrite E.
  destruct (activate_ok s1 [] (sc_b (sp_c s c)) I1) as (s2 & E2 & I2 & W2 & _). rewrite (y_c _ _ W). rewrite E2. exists s2. splits; auto. eapply wakes_trans; eauto.
Qed.
Lemma set_collide_ok s c v : Core s [] -> exists s1, activate_bodies s c = Some s1 /\ Core s1 [] /\ Wakes s s1 /\
  set_collide s c v = Some (set_c s1 (upd (sp_c s1) c (mkSC (sc_a (sp_c s c)) (sc_b (sp_c s c)) (sc_in (sp_c s c)) v))) /\ Core (set_c s1 (upd (sp_c s1) c (mkSC (sc_a (sp_c s c)) (sc_b (sp_c s c)) (sc_in (sp_c s c)) v))) [].
Proof.
  intros I. unfold set_collide. destruct (activate_bodies_ok s c I) as (s1 & E & I1 & W). rewrite E. exists s1. rewrite (y_c _ _ W). splits; auto.
  apply (core_flags s1 (sp_s s1) (upd (sp_c s) c (mkSC (sc_a (sp_c s c)) (sc_b (sp_c s c)) (sc_in (sp_c s c)) v)) []) in I1; [exact I1|auto|]. intros y. rewrite (y_c _ _ W), upd_spec. destruct (Nat.eqb_spec y c) as [->|]; auto.
Qed.
Theorem exec_ok s o : Core s [] -> Proto s -> legal s o -> exists s', exec s o = Some s' /\ Core s' [] /\ Proto s'.
Proof.
  intros I PR L. destruct o as [b|b|x|x|c|c|b k|b|b f| |dt mv thr hits|x v|c v]; cbn [exec legal] in *.
  - destruct L as [L1 L2]. destruct (add_body_ok s b I L1 L2) as (s' & E & I' & _). exists s'. splits; auto. exact (calm_proto s s' [] (add_body_calm s b s' E) I I' PR).
  - destruct L as (L1 & L2 & L3). destruct (remove_body_ok s b I L1 L2 L3) as (s1 & s' & _ & E & I' & _). exists s'. splits; auto. exact (calm_proto s s' [] (remove_body_calm s b s' I E) I I' PR).
  - destruct L as (L1 & L2). destruct (add_shape_ok s x I L1 L2) as (s' & E & I' & _). exists s'. splits; auto. exact (calm_proto s s' [] (add_shape_calm s x s' I E) I I' PR).
  - destruct (remove_shape_ok s x I L) as (s' & E & I' & _). exists s'. splits; auto. exact (remove_shape_proto s x s' I I' E PR).
  - destruct L as (L1 & L2 & L3 & L4). destruct (add_con_ok s c I L1 L2 L3 L4) as (s' & E & I' & _). exists s'. splits; auto. exact (calm_proto s s' [] (add_con_calm s c s' I E) I I' PR).
  - destruct (remove_con_ok s c I L) as (s' & E & I' & _). exists s'. splits; auto. exact (calm_proto s s' [] (remove_con_calm s c s' I E) I I' PR).
  - destruct L as (L1 & L2 & L3). destruct (set_type_ok s b k I L1 L2 L3) as (s' & E & I' & _). exists s'. splits; auto. exact (calm_proto s s' [] (set_type_calm s b k s' L2 E) I I' PR).
  - destruct (activate_ok s [] b I) as (s' & E & I' & W & _). exists s'. splits; auto. exact (calm_proto s s' [] (calm_quiet _ _ (quiet_wakes _ _ W)) I I' PR).
  - destruct (activate_static_run s b f I) as (s' & E). destruct (activate_static_calm s b f s' I E) as [C I']. exists s'. splits; auto. exact (calm_proto s s' [] C I I' PR).
  - destruct (gravity_run (length (sp_sleep s)) 0 (sp_sleep s) s I) as (s' & E & I' & W). exists s'. splits; auto. exact (calm_proto s s' [] (calm_quiet _ _ (quiet_wakes _ _ W)) I I' PR).
  - destruct (step_ok s dt mv thr hits I L) as (s' & E & I' & S). exists s'. splits; auto. now apply (t_proto _ _ _ _ _ _ S).
  - destruct (set_sensor_ok s x v I) as (s1 & E1 & I1 & W & E & I'). eexists. splits; [exact E|exact I'|]. apply (calm_proto s1 _ []); auto; [apply calm_same; reflexivity|]. exact (calm_proto s s1 [] (calm_quiet _ _ (quiet_wakes _ _ W)) I I1 PR).
  - destruct (set_collide_ok s c v I) as (s1 & E1 & I1 & W & E & I'). eexists. splits; [exact E|exact I'|]. apply (calm_proto s1 _ []); auto; [apply calm_same; reflexivity|]. exact (calm_proto s s1 [] (calm_quiet _ _ (quiet_wakes _ _ W)) I I1 PR).
Qed.
Lemma init_ok kinds sh co sb : kinds sb = Stat -> Core (space_init kinds sh co sb) [] /\ Proto (space_init (T := T) kinds sh co sb).
Proof.
  intros K. set (s := space_init kinds sh co sb). assert (NL : forall x, ~ live s x) by (intros x [[]|[]]). split.
  - constructor; try reflexivity; try solve [constructor]; try solve [intros; constructor]; try solve [intros x D; destruct (NL x D)]; try solve [intros; cbn in *; try discriminate; try contradiction; auto].
    + intros b. split; [intros []|]. intros [D _]. discriminate D.
    + intros b. split; [intros []|]. intros [D _]. discriminate D.
    + split; [exact K|]. intros D. discriminate D.
    + intros x b. split; [intros []|]. intros [D _]. discriminate D.
    + intros x. split; [intros []|]. intros [D _]. discriminate D.
    + intros x. split; [intros []|]. intros [D _]. discriminate D.
    + intros c b. split; [intros []|]. intros [D _]. discriminate D.
    + intros c. split; [intros []|]. intros [D _]. discriminate D.
    + intros x. split; [intros []|]. intros [[] _].
    + intros x y D. destruct (NL x D).
  - constructor; try solve [intros x D; destruct (NL x D)].
    + intros a b _. reflexivity.
    + intros x [].
Qed.
Theorem reach_ok s : reachable s -> Core s [] /\ Proto s.
Proof.
  intros (s0 & (kinds & sh & co & sb & K & ->) & HR). induction HR as [|s o s' HR [I PR] L E]; [now apply init_ok|]. destruct (exec_ok s o I PR L) as (s2 & E2 & ? & ?). rewrite E in E2. injection E2 as <-. auto.
Qed.
End Reach.
