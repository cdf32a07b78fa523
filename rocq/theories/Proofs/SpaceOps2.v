(** SetType and RemoveShape keep the invariant. *)
From Coq Require Import List Arith NArith Bool Lia Permutation FunctionalExtensionality.
From Verif.Model Require Import HashSet Space.
From Verif.Proofs Require Import Util SpaceLib SpaceInv SpaceAct SpaceOps.
Import ListNotations.

Section Ops2.
Context {T : Type} `{Time T}.
Notation Sp := (Space T).
Implicit Types (s : Sp) (b x c r : nat).

(** only idle times differ *)
Record IdleOnly s s' : Prop := { o_b : forall y, sp_b s' y = sp_b s y \/ sp_b s' y = b_idle (sp_b s y) t0; o_l : SameL s s'; o_a : sp_a s' = sp_a s; o_log : sp_log s' = sp_log s }.
Lemma sameL_refl s : SameL s s.
Proof. constructor; reflexivity. Qed.
Lemma sameL_trans s s1 s2 : SameL s s1 -> SameL s1 s2 -> SameL s s2.
Proof. intros [] []; constructor; congruence. Qed.
Lemma idleonly_refl s : IdleOnly s s.
Proof. constructor; auto. apply sameL_refl. Qed.
Lemma idleonly_trans s s1 s2 : IdleOnly s s1 -> IdleOnly s1 s2 -> IdleOnly s s2.
Proof.
  intros [B1 L1 A1 G1] [B2 L2 A2 G2]. constructor; try congruence; [|eapply sameL_trans; eauto].
  intros y. destruct (B2 y) as [->| ->]; auto. destruct (B1 y) as [->| ->]; auto.
Qed.
Lemma idleonly_upd s b : IdleOnly s (upd_b s b (b_idle (bod s b) t0)).
Proof. constructor; try reflexivity; [|constructor; reflexivity]. intros y. ss. rewrite upd_spec. destruct (Nat.eqb_spec y b); subst; auto. Qed.
Lemma idleonly_same s s' : IdleOnly s s' -> SameB s s'.
Proof. intros O. constructor; intros y; unfold kind, root, next, arbl, conl, shl; destruct (o_b _ _ O y) as [->| ->]; reflexivity. Qed.
Lemma activate_awake s b : root s b = None -> exists s', activate s b = Some s' /\ IdleOnly s s' /\ (kind s b = Dyn -> idle s' b = t0).
Proof.
  intros Rb. unfold activate. destruct (is_dyn s b) eqn:D; cbn [negb].
  2:{ exists s. splits; auto; [apply idleonly_refl|]. unfold is_dyn in D. apply kind_eqb_neq in D. tauto. }
  set (s1 := upd_b s b _). assert (O1 : IdleOnly s s1) by apply idleonly_upd. assert (D1 : idle s1 b = t0) by (unfold idle, s1; ss; now rewrite upd_same).
  change (sb_root (bod s1 b)) with (root s1 b). rewrite (v_root _ _ (idleonly_same _ _ O1)), Rb.
  assert (L : forall l s2, IdleOnly s1 s2 -> idle s2 b = t0 -> exists s', each (touch_idle b) s2 l = Some s' /\ IdleOnly s1 s' /\ idle s' b = t0).
  { induction l as [|x l IH]; intros s2 O2 D2; cbn [each]; [eauto|]. unfold touch_idle at 1. apply IH.
    - destruct (is_stat s2 _); auto. eapply idleonly_trans; eauto. apply idleonly_upd.
    - destruct (is_stat s2 _); auto. unfold idle in *. ss. rewrite upd_spec. destruct (Nat.eqb_spec b (arb_other s2 b x)); auto. }
  destruct (L (sb_arbs (bod s1 b)) s1) as (s' & E & O' & D'); [apply idleonly_refl|auto|]. exists s'. splits; auto. eapply idleonly_trans; eauto.
Qed.

Lemma each_ext (f g : Sp -> nat -> option Sp) l : (forall s x, f s x = g s x) -> forall s, each f s l = each g s l.
Proof. intros E. induction l as [|x l IH]; intros s; cbn [each]; auto. rewrite E. destruct (g s x); auto. Qed.
(** taking shapes out of the dynamic index and putting them back *)
Definition reput s sh : option Sp :=
  match (if memb sh (sp_didx s) then Some (set_didx s (del sh (sp_didx s))) else None) with
  | Some s => if memb sh (sp_didx s) then None else Some (set_didx s (sp_didx s ++ [sh]))
  | None => None end.
Lemma each_reput l : forall s, NoDup (sp_didx s) -> (forall x, In x l -> In x (sp_didx s)) -> exists d, each reput s l = Some (set_didx s d) /\ NoDup d /\ (forall x, In x d <-> In x (sp_didx s)).
Proof.
  induction l as [|x l IH]; intros s ND HI; cbn [each].
  - exists (sp_didx s). splits; auto; [destruct s; reflexivity|tauto].
  - unfold reput at 1. assert (X := HI x (or_introl eq_refl)). apply memb_In in X. rewrite X. apply memb_In in X. ss.
    assert (M : memb x (del x (sp_didx s)) = false). { apply memb_false. rewrite del_In by auto. tauto. } rewrite M.
    destruct (IH (set_didx s (del x (sp_didx s) ++ [x]))) as (d & E & N & Hd); ss.
    + apply NoDup_snoc; [now apply del_nodup|]. now apply memb_false.
    + intros y Hy. rewrite In_snoc, del_In by auto. destruct (Nat.eq_dec y x) as [->|]; auto. left. split; auto. apply HI. cbn; auto.
    + exists d. splits; auto.
      intros y. rewrite Hd, In_snoc, del_In by auto. destruct (Nat.eq_dec y x) as [->|]; tauto.
Qed.

(** SetType on a body that is awake; a static body must not carry sleeping bodies *)
Lemma set_type_ok s b k : Core s [] -> inb s b -> root s b = None ->
  (kind s b = Stat -> (forall x, In x (arbl s b) -> root s (arb_other s b x) = None) /\ (forall c, In c (conl s b) -> root s (con_other s b c) = None)) ->
  exists s', set_type s b k = Some s' /\ Core s' [] /\ (forall y, sb_in (sp_b s' y) = sb_in (sp_b s y)) /\ (forall y, kind s' y = if Nat.eqb y b then k else kind s y) /\
    (forall y, root s' y = root s y) /\ sp_s s' = sp_s s /\ sp_c s' = sp_c s /\ sp_log s' = sp_log s.
Proof.
  intros I IB Rb NS. unfold set_type. destruct (kind_eqb (kind s b) k) eqn:EK.
  { apply kind_eqb_eq in EK. exists s. splits; auto. intros y. destruct (Nat.eqb_spec y b); subst; auto. }
  apply kind_eqb_neq in EK. set (s1 := upd_b s b _). set (old := kind s b) in *.
  assert (R1 : forall y, root s1 y = root s y) by (unfold s1; vw).
  assert (ACT : exists s2, (if kind_eqb k Dyn then activate s1 b else Some s1) = Some s2 /\ IdleOnly s1 s2).
  { destruct (kind_eqb k Dyn); [|exists s1; split; auto; apply idleonly_refl]. destruct (activate_awake s1 b) as (s2 & E & O & _); [now rewrite R1|]. eauto. }
  destruct ACT as (s2 & -> & O2). assert (V2 := idleonly_same _ _ O2).
  assert (IN2 : sb_in (bod s2 b) = true). { unfold bod. rewrite (v_in _ _ V2). unfold s1. ss. rewrite upd_same. exact IB. } rewrite IN2. cbn [negb].
  assert (ACT : exists s3, (if kind_eqb old Stat then Some s2 else activate s2 b) = Some s3 /\ IdleOnly s2 s3).
  { destruct (kind_eqb old Stat); [exists s2; split; auto; apply idleonly_refl|]. destruct (activate_awake s2 b) as (s3 & E & O & _); [now rewrite (v_root _ _ V2), R1|]. eauto. }
  destruct ACT as (s3 & -> & O3'). assert (O3 := idleonly_trans _ _ _ O2 O3'). clear O2 V2 IN2 O3' s2. assert (V3 := idleonly_same _ _ O3). assert (L3 := o_l _ _ O3).
  set (s4 := if kind_eqb old Stat then _ else _).
  assert (BODY : forall y, sp_b s3 y = sp_b s1 y \/ sp_b s3 y = b_idle (sp_b s1 y) t0) by apply O3.
  assert (SHB : shl s3 b = shl s b). { rewrite (v_shl _ _ V3). unfold s1. vw. }
  assert (D4 : sp_didx s4 = sp_didx s) by (transitivity (sp_didx s3); [unfold s4; now destruct (kind_eqb old Stat), (kind_eqb k Stat)|rewrite (v_didx _ _ L3); reflexivity]).
  assert (S4 : sp_sidx s4 = sp_sidx s) by (transitivity (sp_sidx s3); [unfold s4; now destruct (kind_eqb old Stat), (kind_eqb k Stat)|rewrite (v_sidx _ _ L3); reflexivity]).
  assert (B4 : sp_b s4 = sp_b s3) by (unfold s4; now destruct (kind_eqb old Stat), (kind_eqb k Stat)).
  assert (SHI : forall x, In x (shl s b) -> ss_in (sp_s s x) = true /\ ss_body (sp_s s x) = b) by (intros x; apply (i_shp _ _ I)).
  assert (LOOP : exists d e, each (fun s sh => match (if kind_eqb old Stat then if memb sh (sp_sidx s) then Some (set_sidx s (del sh (sp_sidx s))) else None else if memb sh (sp_didx s) then Some (set_didx s (del sh (sp_didx s))) else None) with
       | Some s => if kind_eqb k Stat then if memb sh (sp_sidx s) then None else Some (set_sidx s (sp_sidx s ++ [sh])) else if memb sh (sp_didx s) then None else Some (set_didx s (sp_didx s ++ [sh])) | None => None end) s4 (shl s b) = Some (set_sidx (set_didx s4 d) e) /\ NoDup d /\ NoDup e /\
     (forall x, In x d <-> ss_in (sp_s s x) = true /\ (if Nat.eqb (ss_body (sp_s s x)) b then k else kind s (ss_body (sp_s s x))) <> Stat /\ root s (ss_body (sp_s s x)) = None) /\
     (forall x, In x e <-> ss_in (sp_s s x) = true /\ ((if Nat.eqb (ss_body (sp_s s x)) b then k else kind s (ss_body (sp_s s x))) = Stat \/ root s (ss_body (sp_s s x)) <> None))).
  { destruct (kind_eqb old Stat) eqn:OS.
    - apply kind_eqb_eq in OS. assert (KS : kind_eqb k Stat = false) by (apply kind_eqb_neq; congruence). rewrite KS.
      rewrite (each_ext _ idx_move_out) by (intros s0 x; unfold idx_move_out; destruct (memb x (sp_sidx s0)); reflexivity).
      rewrite each_move_out; [| apply I|rewrite S4; apply I|]. 
      2:{ intros x Hx. apply SHI in Hx as [X1 X2]. rewrite S4, D4, (i_sidx _ _ I), (i_didx _ _ I), X2. fold old. tauto. }
      exists (sp_didx s4 ++ shl s b), (dels (shl s b) (sp_sidx s4)). rewrite D4, S4. splits.
      + reflexivity.
      + apply nodup_app. splits; try apply I. intros x Hx Hx'. apply SHI in Hx' as [X1 X2]. apply (i_didx _ _ I) in Hx. rewrite X2 in Hx. fold old in Hx. tauto.
      + apply dels_nodup, I.
      + intros x. rewrite in_app_iff, (i_didx _ _ I), (i_shp _ _ I). apply kind_eqb_neq in KS. destruct (Nat.eqb_spec (ss_body (sp_s s x)) b) as [->|]; [fold old; tauto|tauto].
      + intros x. rewrite dels_In by apply I. rewrite (i_sidx _ _ I), (i_shp _ _ I). apply kind_eqb_neq in KS. destruct (Nat.eqb_spec (ss_body (sp_s s x)) b) as [->|]; tauto.
    - apply kind_eqb_neq in OS. destruct (kind_eqb k Stat) eqn:KS.
      + apply kind_eqb_eq in KS. rewrite (each_ext _ idx_move_in) by (intros s0 x; unfold idx_move_in; destruct (memb x (sp_didx s0)); reflexivity).
        rewrite each_move_in; [| apply I|rewrite D4; apply I|].
        2:{ intros x Hx. apply SHI in Hx as [X1 X2]. rewrite S4, D4, (i_sidx _ _ I), (i_didx _ _ I), X2. fold old. tauto. }
        exists (dels (shl s b) (sp_didx s4)), (sp_sidx s4 ++ shl s b). rewrite D4, S4. splits.
        * reflexivity.
        * apply dels_nodup, I.
        * apply nodup_app. splits; try apply I. intros x Hx Hx'. apply SHI in Hx' as [X1 X2]. apply (i_sidx _ _ I) in Hx. rewrite X2 in Hx. fold old in Hx. tauto.
        * intros x. rewrite dels_In by apply I. rewrite (i_didx _ _ I), (i_shp _ _ I). destruct (Nat.eqb_spec (ss_body (sp_s s x)) b) as [->|]; tauto.
        * intros x. rewrite in_app_iff, (i_sidx _ _ I), (i_shp _ _ I). destruct (Nat.eqb_spec (ss_body (sp_s s x)) b) as [->|]; [fold old; tauto|tauto].
      + apply kind_eqb_neq in KS. destruct (each_reput (shl s b) s4) as (d & E & N & Hd); [rewrite D4; apply I| |].
        { intros x Hx. apply SHI in Hx as [X1 X2]. rewrite D4, (i_didx _ _ I), X2. fold old. tauto. }
        exists d, (sp_sidx s4). splits; auto; rewrite ?S4; try apply I.
        * intros x. rewrite Hd, D4, (i_didx _ _ I). destruct (Nat.eqb_spec (ss_body (sp_s s x)) b) as [->|]; [fold old; tauto|tauto].
        * intros x. rewrite (i_sidx _ _ I). destruct (Nat.eqb_spec (ss_body (sp_s s x)) b) as [->|]; [fold old; tauto|tauto]. }
  destruct LOOP as (d & e & EL & Nd & Ne & Hd & He). unfold bod at 1. rewrite B4. change (sb_shapes (sp_b s3 b)) with (shl s3 b). rewrite SHB, EL.
  eexists. split; [reflexivity|]. set (s' := set_sidx _ _).
  assert (B : sp_b s' = sp_b s3) by exact B4.
  assert (K : forall y, kind s' y = if Nat.eqb y b then k else kind s y). { intros y. unfold kind. rewrite B. fold (kind s3 y). rewrite (v_kind _ _ V3). unfold s1. vw. }
  assert (R : forall y, root s' y = root s y). { intros y. unfold root at 1. rewrite B. fold (root s3 y). rewrite (v_root _ _ V3). apply R1. }
  assert (N : forall y, next s' y = next s y). { intros y. unfold next at 1. rewrite B. fold (next s3 y). rewrite (v_next _ _ V3). unfold s1. vw. }
  assert (A : forall y, arbl s' y = arbl s y). { intros y. unfold arbl at 1. rewrite B. fold (arbl s3 y). rewrite (v_arbl _ _ V3). unfold s1. vw. }
  assert (C : forall y, conl s' y = conl s y). { intros y. unfold conl at 1. rewrite B. fold (conl s3 y). rewrite (v_conl _ _ V3). unfold s1. vw. }
  assert (SH : forall y, shl s' y = shl s y). { intros y. unfold shl at 1. rewrite B. fold (shl s3 y). rewrite (v_shl _ _ V3). unfold s1. vw. }
  assert (IN : forall y, sb_in (sp_b s' y) = sb_in (sp_b s y)). { intros y. rewrite B. rewrite (v_in _ _ V3). unfold s1. vw. }
  assert (ID : forall y, kind s' y = Kin -> sb_idle (sp_b s' y) = t0).
  { intros y Ky. rewrite B. destruct (BODY y) as [->| ->]; [|reflexivity]. rewrite K in Ky. unfold s1. ss. rewrite upd_spec. destruct (Nat.eqb_spec y b); [reflexivity|]. now apply I. }
  assert (INB : forall y, inb s' y <-> inb s y) by (intros y; unfold inb; now rewrite IN).
  assert (LL : SameL s s3) by (eapply sameL_trans; [|exact L3]; constructor; reflexivity).
  assert (E : sp_a s' = sp_a s /\ sp_s s' = sp_s s /\ sp_sleep s' = sp_sleep s /\ sp_roused s' = sp_roused s /\ sp_arbs s' = sp_arbs s /\ sp_cache s' = sp_cache s /\ sp_c s' = sp_c s /\ sp_cons s' = sp_cons s /\ sp_pool s' = sp_pool s /\ sp_locked s' = sp_locked s /\ sp_stamp s' = sp_stamp s /\ sp_na s' = sp_na s /\ sp_sb s' = sp_sb s /\ sp_nb s' = sp_nb s /\ sp_log s' = sp_log s).
  { assert (E1 : sp_a s' = sp_a s3) by (unfold s', s4; destruct (kind_eqb old Stat), (kind_eqb k Stat); reflexivity).
    assert (E2 : sp_log s' = sp_log s3) by (unfold s', s4; destruct (kind_eqb old Stat), (kind_eqb k Stat); reflexivity).
    rewrite E1, E2, (o_a _ _ O3), (o_log _ _ O3). destruct LL. unfold s', s4. splits; try reflexivity; destruct (kind_eqb old Stat), (kind_eqb k Stat); ss; congruence. }
  destruct E as (E2 & E3 & E4 & E5 & E6 & E7 & E8 & E9 & E10 & E11 & E12 & E13 & E14 & E15 & E16).
  assert (Dy : sp_dyn s' = if kind_eqb old Stat then sp_dyn s ++ [b] else if kind_eqb k Stat then del b (sp_dyn s) else sp_dyn s)
    by (destruct LL; unfold s', s4; destruct (kind_eqb old Stat), (kind_eqb k Stat); ss; congruence).
  assert (St : sp_stat s' = if kind_eqb old Stat then del b (sp_stat s) else if kind_eqb k Stat then sp_stat s ++ [b] else sp_stat s)
    by (destruct LL; unfold s', s4; destruct (kind_eqb old Stat), (kind_eqb k Stat); ss; congruence).
  assert (BA : forall x, ba s' x = ba s x) by (intros x; unfold ba; now rewrite E2). assert (BB : forall x, bb s' x = bb s x) by (intros x; unfold bb; now rewrite E2).
  assert (TH : forall x, threaded s' x <-> threaded s x) by (intros x; unfold threaded; now rewrite A, BA).
  assert (LV : forall x, live s' x <-> live s x) by (intros x; unfold live; now rewrite TH, E7).
  assert (PR : forall y, present s' y <-> present s y) by (intros y; unfold present; rewrite INB, E14; tauto).
  assert (NSB : b <> sp_sb s). { intros ->. destruct (i_sb _ _ I). tauto. }
  assert (INd : forall y, In y (sp_dyn s') <-> inb s y /\ kind s' y <> Stat /\ root s y = None).
  { intros y. rewrite Dy, K. destruct (kind_eqb old Stat) eqn:OS; [apply kind_eqb_eq in OS|apply kind_eqb_neq in OS; destruct (kind_eqb k Stat) eqn:KS; [apply kind_eqb_eq in KS|apply kind_eqb_neq in KS]].
    - rewrite In_snoc, (i_dyn _ _ I). destruct (Nat.eqb_spec y b) as [->|]; [|tauto]. split; [|tauto]. intros _. splits; auto. congruence.
    - rewrite del_In by apply I. rewrite (i_dyn _ _ I). destruct (Nat.eqb_spec y b) as [->|]; tauto.
    - rewrite (i_dyn _ _ I). destruct (Nat.eqb_spec y b) as [->|]; [|tauto]. fold old. tauto. }
  assert (INs : forall y, In y (sp_stat s') <-> inb s y /\ kind s' y = Stat).
  { intros y. rewrite St, K. destruct (kind_eqb old Stat) eqn:OS; [apply kind_eqb_eq in OS|apply kind_eqb_neq in OS; destruct (kind_eqb k Stat) eqn:KS; [apply kind_eqb_eq in KS|apply kind_eqb_neq in KS]].
    - rewrite del_In by apply I. rewrite (i_stat _ _ I). destruct (Nat.eqb_spec y b) as [->|]; [|tauto]. split; [tauto|]. intros [_ ?]. congruence.
    - rewrite In_snoc, (i_stat _ _ I). destruct (Nat.eqb_spec y b) as [->|]; tauto.
    - rewrite (i_stat _ _ I). destruct (Nat.eqb_spec y b) as [->|]; [|tauto]. fold old. tauto. }
  assert (CLB : forall y r, root s y = Some r -> y <> b) by (intros y r Ey ->; congruence).
  splits; auto. constructor; rewrite ?E2, ?E3, ?E4, ?E5, ?E6, ?E7, ?E8, ?E9, ?E10, ?E11, ?E12, ?E13, ?E14, ?E15; try solve [apply I].
  - rewrite Dy. destruct (kind_eqb old Stat) eqn:OS; [|destruct (kind_eqb k Stat); [apply del_nodup|]; apply I]. apply NoDup_snoc; [apply I|]. rewrite (i_dyn _ _ I). apply kind_eqb_eq in OS. fold old. tauto.
  - rewrite St. destruct (kind_eqb old Stat) eqn:OS; [apply del_nodup, I|]. destruct (kind_eqb k Stat); [|apply I]. apply NoDup_snoc; [apply I|]. rewrite (i_stat _ _ I). apply kind_eqb_neq in OS. fold old. tauto.
  - intros y. rewrite INd, INB, R. tauto.
  - intros y. rewrite INs, INB. tauto.
  - intros y. rewrite INB. apply I.
  - rewrite INB, K. destruct (Nat.eqb_spec (sp_sb s) b); [congruence|]. apply I.
  - intros y r. rewrite R, INB, K. intros Ey. destruct (Nat.eqb_spec y b); [congruence|]. destruct (i_root _ _ I y r Ey) as (X1 & X2 & X3 & l & X4 & X5). splits; auto. exists l. split; auto. eapply chain_ext; eauto.
  - intros r Hr. destruct (i_comp _ _ I r Hr) as (l & X1 & X2 & X3). exists l. splits; auto; [eapply chain_ext; eauto|]. intros y. rewrite R. auto.
  - intros y. rewrite R, N. apply I.
  - exact ID.
  - intros x y. rewrite SH. apply I.
  - intros y. rewrite SH. apply I.
  - exact Nd.
  - exact Ne.
  - intros x. rewrite K, R. apply Hd.
  - intros x. rewrite K, R. apply He.
  - intros x. rewrite PR. apply I.
  - intros c y. rewrite C. apply I.
  - intros y. rewrite C. apply I.
  - intros c. rewrite !PR. apply I.
  - intros c. rewrite !R. apply I.
  - intros c r Hc. rewrite !R, !K. destruct (i_con_cl _ _ I c r Hc) as [CL1 CL2]. split; intros E.
    + destruct (Nat.eqb_spec (sc_b (sp_c s c)) b) as [Eb|]; auto. exfalso. destruct (CL1 E) as [X|X]; [|rewrite Eb in X; congruence]. rewrite Eb in X. destruct (NS X) as [_ NS2].
      specialize (NS2 c). unfold con_other in NS2. destruct (Nat.eqb_spec (sc_a (sp_c s c)) b) as [Ea|]; [congruence|]. rewrite NS2 in E; [discriminate|]. apply (i_con _ _ I). auto.
    + destruct (Nat.eqb_spec (sc_a (sp_c s c)) b) as [Eb|]; auto. exfalso. destruct (CL2 E) as [X|X]; [|rewrite Eb in X; congruence]. rewrite Eb in X. destruct (NS X) as [_ NS2].
      specialize (NS2 c). unfold con_other in NS2. rewrite (proj2 (Nat.eqb_eq _ _) Eb) in NS2. rewrite NS2 in E; [discriminate|]. apply (i_con _ _ I). auto.
  - intros x y. rewrite BA, BB, !A. apply I.
  - intros y. rewrite A. apply I.
  - intros x. rewrite TH. apply I.
  - intros x. rewrite TH, BA, BB, !R. apply I.
  - intros x. rewrite TH, BA, BB, !R. apply I.
  - intros x r. rewrite TH, BA, BB, !R, !K. intros Tx. destruct (i_thr _ _ I _ _ Tx) as (_ & T1 & T2). destruct (i_thr_cl _ _ I x r Tx) as [CL1 CL2]. split; intros E.
    + destruct (Nat.eqb_spec (bb s x) b) as [Eb|]; auto. exfalso. destruct (CL1 E) as [X|X]; [|rewrite Eb in X; congruence]. rewrite Eb in X. destruct (NS X) as [NS2 _].
      specialize (NS2 x). unfold arb_other in NS2. fold (ba s x) (bb s x) in NS2. destruct (Nat.eqb_spec (ba s x) b) as [Ea|]; [congruence|]. rewrite NS2 in E; [discriminate|]. now rewrite <- Eb.
    + destruct (Nat.eqb_spec (ba s x) b) as [Eb|]; auto. exfalso. destruct (CL2 E) as [X|X]; [|rewrite Eb in X; congruence]. rewrite Eb in X. destruct (NS X) as [NS2 _].
      specialize (NS2 x). unfold arb_other in NS2. fold (ba s x) (bb s x) in NS2. rewrite (proj2 (Nat.eqb_eq _ _) Eb) in NS2. rewrite NS2 in E; [discriminate|]. now rewrite <- Eb.
  - intros x. rewrite LV, BA, BB. apply I.
  - intros x y. rewrite !LV. unfold same_shapes. rewrite E2. apply I.
  - intros x. rewrite LV. apply I.
Qed.

(** *** Forgetting an arbiter *)
Lemma forget_ok s s' P x : Core s P -> In x (sp_cache s) -> ~ In x P ->
  (forall y, kind s' y = kind s y /\ root s' y = root s y /\ next s' y = next s y /\ conl s' y = conl s y /\ shl s' y = shl s y /\ sb_in (sp_b s' y) = sb_in (sp_b s y) /\ idle s' y = idle s y) ->
  (forall y, arbl s' y = del x (arbl s y)) -> SameA s s' -> (forall y, sa_stamp (sp_a s' y) = sa_stamp (sp_a s y)) ->
  sp_arbs s' = del x (sp_arbs s) -> sp_cache s' = del x (sp_cache s) -> sp_pool s' = x :: sp_pool s ->
  (sp_s s' = sp_s s /\ sp_c s' = sp_c s /\ sp_dyn s' = sp_dyn s /\ sp_stat s' = sp_stat s /\ sp_sleep s' = sp_sleep s /\ sp_roused s' = sp_roused s /\ sp_didx s' = sp_didx s /\ sp_sidx s' = sp_sidx s /\ sp_cons s' = sp_cons s /\ sp_locked s' = sp_locked s /\ sp_stamp s' = sp_stamp s /\ sp_na s' = sp_na s /\ sp_sb s' = sp_sb s /\ sp_nb s' = sp_nb s) ->
  Core s' P /\ ~ live s' x.
Proof.
  intros I XC XP BV A AA ST Ab Ca Po (E2 & E3 & E4 & E5 & E6 & E7 & E8 & E9 & E10 & E11 & E12 & E13 & E14 & E15).
  assert (K : forall y, kind s' y = kind s y) by apply BV. assert (R : forall y, root s' y = root s y) by apply BV. assert (N : forall y, next s' y = next s y) by apply BV.
  assert (C : forall y, conl s' y = conl s y) by apply BV. assert (SH : forall y, shl s' y = shl s y) by apply BV. assert (IN : forall y, sb_in (sp_b s' y) = sb_in (sp_b s y)) by apply BV.
  assert (ID : forall y, idle s' y = idle s y) by apply BV. clear BV.
  assert (INB : forall y, inb s' y <-> inb s y) by (intros y; unfold inb; now rewrite IN).
  assert (BA : forall x, ba s' x = ba s x) by (intros y; apply AA). assert (BB : forall x, bb s' x = bb s x) by (intros y; apply AA).
  assert (SA : forall x, sa_a (sp_a s' x) = sa_a (sp_a s x)) by (intros y; apply AA). assert (SB : forall x, sa_b (sp_a s' x) = sa_b (sp_a s x)) by (intros y; apply AA).
  assert (AI : forall y z, In y (arbl s' z) <-> In y (arbl s z) /\ y <> x) by (intros y z; rewrite A; apply del_In, I).
  assert (TH : forall y, threaded s' y <-> threaded s y /\ y <> x) by (intros y; unfold threaded; now rewrite BA, AI).
  assert (CI : forall y, In y (sp_cache s') <-> In y (sp_cache s) /\ y <> x) by (intros y; rewrite Ca; apply del_In, I).
  assert (RI : forall y, In y (sp_arbs s') <-> In y (sp_arbs s) /\ y <> x) by (intros y; rewrite Ab; apply del_In, I).
  assert (LV : forall y, live s' y <-> live s y /\ y <> x) by (intros y; unfold live; rewrite TH, CI; tauto).
  assert (PR : forall y, present s' y <-> present s y) by (intros y; unfold present; rewrite INB, E14; tauto).
  split; [|rewrite LV; tauto]. constructor; rewrite ?E2, ?E3, ?E4, ?E5, ?E6, ?E7, ?E8, ?E9, ?E10, ?E11, ?E12, ?E13, ?E14, ?E15; try solve [apply I].
  - intros y. rewrite INB, K, R. apply I.
  - intros y. rewrite INB, K. apply I.
  - intros y. rewrite INB. apply I.
  - rewrite INB, K. apply I.
  - intros y r. rewrite R, INB, K. intros Ey. destruct (i_root _ _ I y r Ey) as (X1 & X2 & X3 & l & X4 & X5). splits; auto. exists l. split; auto. eapply chain_ext; eauto.
  - intros r Hr. destruct (i_comp _ _ I r Hr) as (l & X1 & X2 & X3). exists l. splits; auto; [eapply chain_ext; eauto|]. intros y. rewrite R. auto.
  - intros y. rewrite R, N. apply I.
  - intros y. rewrite K. unfold idle in ID. rewrite ID. apply I.
  - intros z y. rewrite SH. apply I.
  - intros y. rewrite SH. apply I.
  - intros z. rewrite K, R. apply I.
  - intros z. rewrite K, R. apply I.
  - intros z. rewrite PR. apply I.
  - intros c y. rewrite C. apply I.
  - intros y. rewrite C. apply I.
  - intros c. rewrite !PR. apply I.
  - intros c. rewrite !R. apply I.
  - intros c r. rewrite !R, !K. apply I.
  - intros z y. rewrite BA, BB, !AI. intros [X Y]. destruct (i_thr _ _ I _ _ X) as (? & ? & ?). splits; auto.
  - intros y. rewrite A. apply del_nodup, I.
  - rewrite Ab. apply del_nodup, I.
  - intros z. rewrite RI, CI, ST. intros [X Y]. destruct (i_arbs _ _ I z X). auto.
  - intros z. rewrite RI, TH, (i_pend _ _ I). destruct (Nat.eq_dec z x) as [->|]; [|tauto]. rewrite (i_pend _ _ I) in XP. tauto.
  - intros z. rewrite RI, TH, BA, BB, !R. intros [X _] [Y _]. now apply I.
  - intros z. rewrite RI, TH, CI, BA, BB, !R. intros [Y Z]. destruct (i_thr_st _ _ I z Y) as [?|[? ?]]; auto. right. split; tauto.
  - intros z r. rewrite TH, BA, BB, !R, !K. intros [X _]. now apply I.
  - rewrite Ca. apply del_nodup, I.
  - intros z. rewrite LV, BA, BB, SA, SB. intros [X _]. now apply I.
  - intros z y. rewrite !LV. unfold same_shapes. rewrite !SA, !SB. intros [X _] [Y _]. now apply I.
  - rewrite Po. constructor; [|apply I]. intros X. apply (i_pool _ _ I x); auto. left; auto.
  - intros z. rewrite Po, LV. intros [[<-|X]|X] [Y Z]; [tauto| |]; apply (i_pool _ _ I z); auto.
Qed.

(** *** RemoveShape *)
Lemma activate_static_ok b sh l s0 : forall s, Core s [] -> Wakes s0 s -> exists s', each (fun s x =>
    let arb := sp_a s x in if Nat.eqb sh (sa_a arb) || Nat.eqb sh (sa_b arb) then activate s (arb_other s b x) else Some s) s l = Some s' /\ Core s' [] /\ Wakes s s' /\
  forall x, In x l -> sh = sa_a (sp_a s0 x) \/ sh = sa_b (sp_a s0 x) -> root s' (arb_other s0 b x) = None.
Proof.
  induction l as [|x l IH]; intros s I W; cbn [each]; [exists s; splits; auto; [apply wakes_refl|intros x []]|]. cbv zeta.
  assert (O1 : forall y, arb_other s b y = arb_other s0 b y). { intros y. unfold arb_other. destruct (wakes_ba _ _ y W) as (X & Y & _). unfold ba, bb in *. now rewrite X, Y. }
  destruct (wakes_ba _ _ x W) as (_ & _ & -> & -> & _). rewrite O1.
  assert (ST : exists s1, (if Nat.eqb sh (sa_a (sp_a s0 x)) || Nat.eqb sh (sa_b (sp_a s0 x)) then activate s (arb_other s0 b x) else Some s) = Some s1 /\ Core s1 [] /\ Wakes s s1 /\ (sh = sa_a (sp_a s0 x) \/ sh = sa_b (sp_a s0 x) -> root s1 (arb_other s0 b x) = None)).
  { destruct (Nat.eqb sh (sa_a (sp_a s0 x)) || Nat.eqb sh (sa_b (sp_a s0 x))) eqn:E.
    - destruct (activate_ok s [] (arb_other s0 b x) I) as (s1 & E1 & I1 & W1 & _). exists s1. splits; auto. intros _. apply (activate_root s [] _ _ I E1).
    - exists s. splits; auto; [apply wakes_refl|]. apply orb_false_iff in E. rewrite !Nat.eqb_neq in E. tauto. }
  destruct ST as (s1 & -> & I1 & W1 & R1). destruct (IH s1 I1) as (s' & E' & I' & W' & R'); [eapply wakes_trans; eauto|]. exists s'. splits; auto.
  - eapply wakes_trans; eauto.
  - intros y [<-|Hy] Sy; auto. destruct (y_root _ _ W' (arb_other s0 b x)) as [->| ->]; auto.
Qed.

Definition shp s b (l : list nat) : Sp := upd_b s b (b_shapes (sp_b s b) l).
Lemma sp_eq_b (s s' : Sp) f g : f = g -> set_b s f = set_b s g.
Proof. now intros ->. Qed.
Lemma filter_one_shp s b l body sh x : filter_one body sh (shp s b l) x = match filter_one body sh s x with Some s => Some (shp s b l) | None => None end.
Proof.
  unfold filter_one. change (sp_a (shp s b l)) with (sp_a s). destruct (_ || _); [|reflexivity]. f_equal.
  assert (U : forall t, unthread (shp t b l) x = shp (unthread t x) b l).
  { intros t. unfold unthread, shp. ss. change (sp_a (upd_b t b (b_shapes (sp_b t b) l))) with (sp_a t). unfold upd_b. ss. apply (sp_eq_b t t).
    extensionality y. unfold bod. repeat (cbn [sp_b set_b]; rewrite ?upd_spec). 
    destruct (Nat.eqb_spec y b), (Nat.eqb_spec y (sa_bb (sp_a t x))), (Nat.eqb_spec y (sa_ba (sp_a t x))); subst; rewrite ?Nat.eqb_refl;
    repeat match goal with |- context [Nat.eqb ?p ?q] => destruct (Nat.eqb_spec p q); subst end; try congruence; try reflexivity. rewrite e. reflexivity. }
  destruct (negb _).
  - change (emit (upd_a (shp s b l) x (a_state (sp_a s x) AInvalid)) (ESep (sa_a (sp_a s x)) (sa_b (sp_a s x)))) with (shp (emit (upd_a s x (a_state (sp_a s x) AInvalid)) (ESep (sa_a (sp_a s x)) (sa_b (sp_a s x)))) b l).
    rewrite U. reflexivity.
  - rewrite U. reflexivity.
Qed.
Lemma each_filter_shp b l body sh m : forall s, each (filter_one body sh) (shp s b l) m = match each (filter_one body sh) s m with Some s => Some (shp s b l) | None => None end.
Proof. induction m as [|x m IH]; intros s; cbn [each]; auto. rewrite filter_one_shp. destruct (filter_one body sh s x); auto. Qed.

Lemma unthread_arbl s P x y : Core s P -> arbl (unthread s x) y = del x (arbl s y).
Proof.
  intros I. assert (D : y <> ba s x -> y <> bb s x -> ~ In x (arbl s y)). { intros N1 N2 D. destruct (i_thr _ _ I _ _ D) as ([?|?] & _); congruence. }
  assert (DD : del x (del x (arbl s y)) = del x (arbl s y)). { apply del_none. rewrite del_In by apply I. tauto. }
  unfold unthread, arbl, ba, bb in *. ss. rewrite !upd_spec. unfold bod.
  destruct (Nat.eqb_spec y (sa_bb (sp_a s x))) as [E1|N1].
  - rewrite <- E1. destruct (Nat.eqb_spec y (sa_ba (sp_a s x))) as [E2|N2]; ss; [rewrite <- E2|]; auto.
  - destruct (Nat.eqb_spec y (sa_ba (sp_a s x))) as [E2|N2]; ss; [rewrite <- E2; auto|]. rewrite del_none; auto.
Qed.
Lemma unthread_rest s x : (forall y, kind (unthread s x) y = kind s y /\ root (unthread s x) y = root s y /\ next (unthread s x) y = next s y /\ conl (unthread s x) y = conl s y /\ shl (unthread s x) y = shl s y /\ sb_in (sp_b (unthread s x) y) = sb_in (sp_b s y) /\ idle (unthread s x) y = idle s y) /\
  SameL s (unthread s x) /\ sp_a (unthread s x) = sp_a s /\ sp_log (unthread s x) = sp_log s.
Proof. splits; try reflexivity; [|constructor; reflexivity]. intros y. unfold unthread. splits; vw; unfold bod; congruence. Qed.

(** one arbiter of the shape *)
Lemma filter_one_ok s body sh x : Core s [] -> In x (sp_cache s) -> exists s', filter_one body sh s x = Some s' /\ Core s' [] /\
  (forall y, kind s' y = kind s y /\ root s' y = root s y /\ sb_in (sp_b s' y) = sb_in (sp_b s y)) /\ sp_s s' = sp_s s /\ sp_c s' = sp_c s /\ sp_sb s' = sp_sb s /\ SameA s s' /\
  (forall y, live s' y -> live s y) /\ (forall y, In y (sp_cache s) -> y <> x -> In y (sp_cache s')) /\
  ((body = ba s x /\ sh = sa_a (sp_a s x)) \/ (body = bb s x /\ sh = sa_b (sp_a s x)) -> ~ live s' x).
Proof.
  intros I XC. unfold filter_one. destruct (_ || _) eqn:E.
  - set (s1 := if negb _ then _ else s). 
    assert (V1 : SameB s s1 /\ SameA s s1 /\ SameL s s1 /\ (forall y, sa_stamp (sp_a s1 y) = sa_stamp (sp_a s y)) /\ forall y, sp_b s1 y = sp_b s y).
    { unfold s1. destruct (negb _).
      - splits; [constructor; reflexivity| |constructor; reflexivity| |reflexivity]; intros y; unfold ba, bb; ss; rewrite ?upd_spec; destruct (Nat.eqb_spec y x); subst; splits; reflexivity.
      - splits; [constructor; reflexivity| |constructor; reflexivity| |reflexivity]; intros y; splits; reflexivity. }
    destruct V1 as (V1 & V2 & V3 & V4 & V5).
    assert (I1 : Core s1 []). { apply (core_ext s); auto. intros y _. left. unfold idle. now rewrite V5. }
    destruct (unthread_rest s1 x) as (U1 & U2 & U3 & U4). assert (UA := fun y => unthread_arbl s1 [] x y I1).
    eexists. split; [reflexivity|]. set (s' := set_pool _ _).
    assert (F : Core s' [] /\ ~ live s' x).
    { apply (forget_ok s1); [exact I1| |intros []|exact U1|exact UA| | | | | |].
      - rewrite (v_cache _ _ V3). auto.
      - intros y. unfold ba, bb, s'. ss. rewrite U3. auto.
      - intros y. unfold s'. ss. rewrite U3. auto.
      - unfold s'. ss. now rewrite (v_arbs _ _ U2).
      - unfold s'. ss. now rewrite (v_cache _ _ U2).
      - unfold s'. ss. now rewrite (v_pool _ _ U2).
      - destruct U2. unfold s'. ss. splits; auto. }
    destruct F as [F1 F2]. splits; auto.
    + intros y. destruct (U1 y) as (X1 & X2 & _ & _ & _ & X3 & _). destruct V1. splits; [transitivity (kind s1 y)|transitivity (root s1 y)|transitivity (sb_in (sp_b s1 y))]; auto.
    + transitivity (sp_s s1); [apply U2|apply V3].
    + transitivity (sp_c s1); [apply U2|apply V3].
    + transitivity (sp_sb s1); [apply U2|apply V3].
    + intros y [L|L].
      * left. unfold s' in L. ss. rewrite (v_cache _ _ U2), (v_cache _ _ V3) in L. now apply del_incl in L.
      * right. destruct (V2 y) as (_ & _ & X3 & _). unfold threaded, ba in *. assert (Ea : sp_a s' = sp_a s1) by exact U3. rewrite Ea, X3 in L.
        change (In y (arbl (unthread s1 x) (sa_ba (sp_a s y)))) in L. rewrite UA in L. apply del_incl in L. rewrite (v_arbl _ _ V1) in L. exact L.
    + intros y Y1 Y2. unfold s'. ss. rewrite (v_cache _ _ U2), (v_cache _ _ V3). apply del_In; [apply I|auto].
  - exists s. splits; auto; [intros y; splits; reflexivity|]. intros D. unfold ba, bb in D. apply orb_false_iff in E. rewrite !andb_false_iff, !Nat.eqb_neq in E. tauto.
Qed.

Lemma each_filter_ok body sh m : forall s, Core s [] -> NoDup m -> incl m (sp_cache s) -> exists s', each (filter_one body sh) s m = Some s' /\ Core s' [] /\
  (forall y, kind s' y = kind s y /\ root s' y = root s y /\ sb_in (sp_b s' y) = sb_in (sp_b s y)) /\ sp_s s' = sp_s s /\ sp_c s' = sp_c s /\ sp_sb s' = sp_sb s /\ SameA s s' /\
  (forall y, live s' y -> live s y) /\ (forall y, In y m -> (body = ba s y /\ sh = sa_a (sp_a s y)) \/ (body = bb s y /\ sh = sa_b (sp_a s y)) -> ~ live s' y).
Proof.
  induction m as [|x m IH]; intros s I ND HI; cbn [each].
  - exists s. splits; auto; first [intros y []; fail|intros y; splits; reflexivity].
  - apply NoDup_cons_iff in ND as [N1 N2]. destruct (filter_one_ok s body sh x I) as (s1 & E1 & I1 & B1 & S1 & C1 & SB1 & A1 & L1 & K1 & X1); [apply HI; cbn; auto|]. rewrite E1.
    destruct (IH s1 I1 N2) as (s2 & E2 & I2 & B2 & S2 & C2 & SB2 & A2 & L2 & X2).
    { intros y Hy. apply K1; [apply HI; cbn; auto|congruence]. }
    assert (AA : SameA s s2) by (intros y; destruct (A1 y) as (? & ? & ? & ?), (A2 y) as (? & ? & ? & ?); splits; congruence).
    exists s2. splits; auto; try congruence.
    + intros y. destruct (B1 y) as (? & ? & ?), (B2 y) as (? & ? & ?). splits; congruence.
    + intros y [<-|Hy] D L; [apply X1; auto|]. apply (X2 y Hy); auto. destruct (A1 y) as (-> & -> & -> & ->). auto.
Qed.
Lemma remove_shape_ok s sh : Core s [] -> ss_in (sp_s s sh) = true ->
  exists s', remove_shape s sh = Some s' /\ Core s' [] /\ (forall y, sb_in (sp_b s' y) = sb_in (sp_b s y)) /\ (forall y, kind s' y = kind s y) /\
    sp_s s' = upd (sp_s s) sh (mkSS (ss_body (sp_s s sh)) false (ss_sensor (sp_s s sh))) /\ (forall y, root s' y = root s y \/ root s' y = None) /\ root s' (ss_body (sp_s s sh)) = None /\ sp_c s' = sp_c s /\
    (forall x, live s' x -> sa_a (sp_a s' x) <> sh /\ sa_b (sp_a s' x) <> sh).
Proof.
  intros I0 SI. unfold remove_shape. set (b := ss_body (sp_s s sh)).
  assert (ACT : exists s1, (if is_stat s b then activate_static s b (Some sh) else activate s b) = Some s1 /\ Core s1 [] /\ Wakes s s1 /\ root s1 b = None /\
    (kind s b = Stat -> forall x, In x (arbl s b) -> sh = sa_a (sp_a s x) \/ sh = sa_b (sp_a s x) -> root s1 (arb_other s b x) = None)).
  { destruct (is_stat s b) eqn:S0.
    - unfold is_stat in S0. apply kind_eqb_eq in S0. destruct (activate_static_ok b sh (arbl s b) s s I0 (wakes_refl s)) as (s1 & E1 & I1 & W1 & R1). exists s1. splits; auto.
      apply (stat_root s1 []); auto. rewrite (y_kind _ _ W1). auto.
    - destruct (activate_ok s [] b I0) as (s1 & E1 & I & W & _). exists s1. splits; auto; [apply (activate_root s [] b s1); auto|]. unfold is_stat in S0. apply kind_eqb_neq in S0. tauto. }
  destruct ACT as (s1 & -> & I & W & Rb & NS).
  set (l := swap_del sh (sb_shapes (bod s1 b))). change (upd_b s1 b (b_shapes (bod s1 b) l)) with (shp s1 b l). rewrite each_filter_shp.
  change (sp_cache (shp s1 b l)) with (sp_cache s1).
  destruct (each_filter_ok b sh (sp_cache s1) s1 I) as (s2 & E2 & I2 & B2 & S2 & C2 & SB2 & A2 & L2 & X2); [apply I|apply incl_refl|]. rewrite E2.
  assert (Eb : ss_body (sp_s s2 sh) = b) by (rewrite S2, (y_s _ _ W); reflexivity). assert (Ei : ss_in (sp_s s2 sh) = true) by (rewrite S2, (y_s _ _ W); auto).
  assert (Rb2 : root s2 b = None) by (destruct (B2 b) as (_ & -> & _); auto).
  assert (KB2 : forall y, kind s2 y = kind s1 y) by apply B2.
  (* no live arbiter has the shape *)
  assert (NL : forall x, live s2 x -> sa_a (sp_a s2 x) <> sh /\ sa_b (sp_a s2 x) <> sh).
  { intros x Lx. assert (L1 := L2 x Lx). destruct (A2 x) as (A3 & A4 & A5 & A6). rewrite A3, A4.
    destruct (i_live _ _ I x L1) as (Y1 & Y2 & Y3 & Y4 & Y5). assert (Q : sh = sa_a (sp_a s1 x) \/ sh = sa_b (sp_a s1 x) -> False); [|split; intros Z; apply Q; auto]. intros Q.
    assert (Q' : (b = ba s1 x /\ sh = sa_a (sp_a s1 x)) \/ (b = bb s1 x /\ sh = sa_b (sp_a s1 x))). { destruct Q as [Q|Q]; [left|right]; split; auto; rewrite ?Y3, ?Y4, <- Q; symmetry; rewrite (y_s _ _ W); reflexivity. }
    assert (IC : In x (sp_cache s1)).
    { destruct L1 as [?|Tx]; auto. destruct (i_thr_st _ _ I x Tx) as [X|[_ X]]; [now apply (i_arbs _ _ I)|]. exfalso.
      destruct (i_thr _ _ I _ _ Tx) as (_ & T1 & T2). assert (TB : In x (arbl s1 b)) by (destruct Q' as [[-> _]|[-> _]]; auto).
      assert (Ob : root s1 (arb_other s1 b x) <> None). { unfold arb_other. fold (ba s1 x) (bb s1 x). destruct Q' as [[Q' _]|[Q' _]]; rewrite <- Q' in *; [rewrite Nat.eqb_refl; tauto|]. destruct (Nat.eqb_spec (ba s1 x) b); [congruence|]. tauto. }
      destruct (root s1 (arb_other s1 b x)) as [r|] eqn:Er; [|tauto]. destruct (i_thr_cl _ _ I x r Tx) as [CL1 CL2].
      assert (KS : kind s1 b = Stat). { unfold arb_other in Er. fold (ba s1 x) (bb s1 x) in Er. destruct Q' as [[Q' _]|[Q' _]]; rewrite <- Q' in *.
        - rewrite Nat.eqb_refl in Er. destruct (CL2 Er); [auto|congruence].
        - destruct (Nat.eqb_spec (ba s1 x) b) as [?|?]; [congruence|]. destruct (CL1 Er); [auto|congruence]. }
      destruct (wakes_ba _ _ x W) as (Z1 & Z2 & Z3 & Z4 & _). rewrite (y_kind _ _ W) in KS. specialize (NS KS x). rewrite (y_arbl _ _ W) in TB. rewrite <- Z3, <- Z4 in NS. specialize (NS TB Q).
      assert (OE : arb_other s b x = arb_other s1 b x) by (unfold arb_other; unfold ba, bb in *; now rewrite Z1, Z2). congruence. }
    apply (X2 x IC); auto. }
  set (s3 := shp s2 b l). assert (KS3 : is_stat s3 b = is_stat s2 b) by (unfold is_stat; replace (kind s3 b) with (kind s2 b); auto; unfold s3, shp; vw).
  rewrite KS3. change (sp_sidx s3) with (sp_sidx s2). change (sp_didx s3) with (sp_didx s2).
  assert (EX : exists s4, (if is_stat s2 b then if memb sh (sp_sidx s2) then Some (set_sidx s3 (del sh (sp_sidx s2))) else None else if memb sh (sp_didx s2) then Some (set_didx s3 (del sh (sp_didx s2))) else None) = Some s4 /\
     s4 = set_sidx (set_didx s3 (del sh (sp_didx s2))) (del sh (sp_sidx s2))).
  { destruct (is_stat s2 b) eqn:S0; unfold is_stat in S0; [apply kind_eqb_eq in S0|apply kind_eqb_neq in S0].
    - assert (M : memb sh (sp_sidx s2) = true) by (apply memb_In, (i_sidx _ _ I2); rewrite Eb; auto). rewrite M. eexists. split; [reflexivity|]. rewrite (del_none sh (sp_didx s2)); [reflexivity|]. rewrite (i_didx _ _ I2), Eb. tauto.
    - assert (M : memb sh (sp_didx s2) = true) by (apply memb_In, (i_didx _ _ I2); rewrite Eb; auto). rewrite M. eexists. split; [reflexivity|]. rewrite (del_none sh (sp_sidx s2)); [reflexivity|]. rewrite (i_sidx _ _ I2), Eb. tauto. }
  destruct EX as (s4 & -> & D4). eexists. split; [reflexivity|]. rewrite D4. set (s' := set_s _ _).
  assert (SHL : l = swap_del sh (shl s1 b)) by reflexivity.
  assert (SH2 : shl s2 b = shl s1 b \/ True) by auto.
  assert (K : forall y, kind s' y = kind s2 y) by (unfold s', s3, shp; vw).
  assert (R : forall y, root s' y = root s2 y) by (unfold s', s3, shp; vw).
  assert (N : forall y, next s' y = next s2 y) by (unfold s', s3, shp; vw).
  assert (A : forall y, arbl s' y = arbl s2 y) by (unfold s', s3, shp; vw).
  assert (C : forall y, conl s' y = conl s2 y) by (unfold s', s3, shp; vw).
  assert (SH : forall y, shl s' y = if Nat.eqb y b then l else shl s2 y) by (unfold s', s3, shp; vw).
  assert (ID : forall y, sb_idle (sp_b s' y) = sb_idle (sp_b s2 y)) by (unfold s', s3, shp; vw).
  assert (IN : forall y, sb_in (sp_b s' y) = sb_in (sp_b s2 y)) by (unfold s', s3, shp; vw).
  assert (INB : forall y, inb s' y <-> inb s2 y) by (intros y; unfold inb; now rewrite IN).
  assert (SF : sp_s s' = upd (sp_s s2) sh (mkSS b false (ss_sensor (sp_s s2 sh)))) by reflexivity.
  assert (SB : forall x, ss_body (sp_s s' x) = ss_body (sp_s s2 x)) by (intros x; rewrite SF, upd_spec; destruct (Nat.eqb_spec x sh) as [->|]; auto).
  assert (SII : forall x, ss_in (sp_s s' x) = true <-> ss_in (sp_s s2 x) = true /\ x <> sh).
  { intros x; rewrite SF, upd_spec; destruct (Nat.eqb_spec x sh); cbn; [split; [discriminate|tauto]|tauto]. }
  assert (E : sp_a s' = sp_a s2 /\ sp_c s' = sp_c s2 /\ sp_dyn s' = sp_dyn s2 /\ sp_stat s' = sp_stat s2 /\ sp_sleep s' = sp_sleep s2 /\ sp_roused s' = sp_roused s2 /\ sp_arbs s' = sp_arbs s2 /\ sp_cache s' = sp_cache s2 /\ sp_cons s' = sp_cons s2 /\ sp_pool s' = sp_pool s2 /\ sp_locked s' = sp_locked s2 /\ sp_stamp s' = sp_stamp s2 /\ sp_na s' = sp_na s2 /\ sp_sb s' = sp_sb s2 /\ sp_nb s' = sp_nb s2 /\ sp_didx s' = del sh (sp_didx s2) /\ sp_sidx s' = del sh (sp_sidx s2))
   by (splits; reflexivity).
  clearbody s'. clear s3 s4 D4 KS3.
  destruct E as (F2 & E3 & E4 & E5 & E6 & E7 & E8 & E9 & E10 & E11 & E12 & E13 & E14 & E15 & E16 & E17 & E18).
  assert (BA : forall x, ba s' x = ba s2 x) by (intros x; unfold ba; now rewrite F2). assert (BB : forall x, bb s' x = bb s2 x) by (intros x; unfold bb; now rewrite F2).
  assert (TH : forall x, threaded s' x <-> threaded s2 x) by (intros x; unfold threaded; now rewrite A, BA).
  assert (LV : forall x, live s' x <-> live s2 x) by (intros x; unfold live; now rewrite TH, E9).
  assert (PR : forall y, present s' y <-> present s2 y) by (intros y; unfold present; rewrite INB, E15; tauto).
  assert (SHI : forall x, In x l <-> (ss_in (sp_s s2 x) = true /\ ss_body (sp_s s2 x) = b) /\ x <> sh).
  { intros x. unfold l. rewrite swap_del_In by apply I. change (sb_shapes (bod s1 b)) with (shl s1 b). rewrite (i_shp _ _ I), S2. tauto. }
  splits.
  2:{ intros y. rewrite IN. destruct (B2 y) as (_ & _ & ->). apply W. }
  2:{ intros y. rewrite K, KB2. apply W. }
  2:{ rewrite SF, S2, (y_s _ _ W). reflexivity. }
  2:{ intros y. rewrite R. destruct (B2 y) as (_ & -> & _). apply W. }
  2:{ rewrite R. auto. }
  2:{ rewrite E3, C2. apply W. }
  2:{ intros x. rewrite LV, F2. apply NL. }
  constructor; rewrite ?F2, ?E3, ?E4, ?E5, ?E6, ?E7, ?E8, ?E9, ?E10, ?E11, ?E12, ?E13, ?E14, ?E15, ?E16, ?E17, ?E18; try solve [apply I2].
  - intros y. rewrite INB, K, R. apply I2.
  - intros y. rewrite INB, K. apply I2.
  - intros y. rewrite INB. apply I2.
  - rewrite INB, K. apply I2.
  - intros y r. rewrite R, INB, K. intros Ey. destruct (i_root _ _ I2 y r Ey) as (Q1 & Q2 & Q3 & m & Q4 & Q5). splits; auto. exists m. split; auto. eapply chain_ext; eauto.
  - intros r Hr. destruct (i_comp _ _ I2 r Hr) as (m & Q1 & Q2 & Q3). exists m. splits; auto; [eapply chain_ext; eauto|]. intros y. rewrite R. auto.
  - intros y. rewrite R, N. apply I2.
  - intros y. rewrite K, ID. apply I2.
  - intros x y. rewrite SH, SB, SII. destruct (Nat.eqb_spec y b) as [->|Ny]; [rewrite SHI; tauto|]. rewrite (i_shp _ _ I2). split; [|tauto]. intros [Q1 Q2]. splits; auto. intros ->. congruence.
  - intros y. rewrite SH. destruct (Nat.eqb_spec y b) as [->|Ny]; [|apply I2]. apply swap_del_nodup. apply I.
  - apply del_nodup, I2.
  - apply del_nodup, I2.
  - intros x. rewrite del_In by apply I2. rewrite SB, SII, K, R, (i_didx _ _ I2). tauto.
  - intros x. rewrite del_In by apply I2. rewrite SB, SII, K, R, (i_sidx _ _ I2). tauto.
  - intros x. rewrite PR, SB, SII. intros [Hx _]. now apply I2.
  - intros c y. rewrite C. apply I2.
  - intros y. rewrite C. apply I2.
  - intros c. rewrite !PR. apply I2.
  - intros c. rewrite !R. apply I2.
  - intros c r. rewrite !R, !K. apply I2.
  - intros x y. rewrite BA, BB, !A. apply I2.
  - intros y. rewrite A. apply I2.
  - intros x. rewrite TH. apply I2.
  - intros x. rewrite TH, BA, BB, !R. apply I2.
  - intros x. rewrite TH, BA, BB, !R. apply I2.
  - intros x r. rewrite TH, BA, BB, !R, !K. apply I2.
  - intros x. rewrite LV, BA, BB, !SII, !SB. intros L. destruct (i_live _ _ I2 x L) as (Q1 & Q2 & Q3). destruct (NL x L). tauto.
  - intros x y. rewrite !LV. unfold same_shapes. rewrite F2. apply I2.
  - intros x. rewrite LV. apply I2.
Qed.
End Ops2.
