(** The operations on bodies, shapes and constraints keep the invariant. *)
From Coq Require Import List Arith NArith Bool Lia Permutation.
From Verif.Model Require Import HashSet Space.
From Verif.Proofs Require Import Util SpaceLib SpaceInv SpaceAct.
Import ListNotations.

Ltac vw := intros; unfold kind, root, next, arbl, conl, shl, inb, idle, ba, bb in *; ss; rewrite ?upd_spec;
  repeat match goal with |- context [Nat.eqb ?p ?q] => destruct (Nat.eqb_spec p q); subst end; ss; auto; try congruence.

Section Ops.
Context {T : Type} `{Time T}.
Notation Sp := (Space T).
Implicit Types (s : Sp) (b x c r : nat).

Lemma live_bodies s P x : Core s P -> live s x -> present s (ba s x) /\ present s (bb s x) /\ ba s x <> bb s x.
Proof. intros I L. destruct (i_live _ _ I x L) as (A & B & -> & -> & N). splits; auto; now apply (i_shp_body _ _ I). Qed.
Lemma no_root s P b : Core s P -> ~ inb s b -> root s b = None.
Proof. intros I N. destruct (root s b) eqn:E; auto. apply (i_root _ _ I) in E. tauto. Qed.
Lemma stat_root s P b : Core s P -> kind s b = Stat -> root s b = None.
Proof. intros I N. destruct (root s b) eqn:E; auto. apply (i_root _ _ I) in E. destruct E as (_ & E & _). congruence. Qed.

(** *** AddBody *)
Lemma add_body_ok s b : Core s [] -> ~ inb s b -> b <> sp_sb s -> exists s', add_body s b = Some s' /\ Core s' [] /\
  (forall y, inb s' y <-> inb s y \/ y = b) /\ (forall y, kind s' y = kind s y) /\ (forall y, root s' y = root s y).
Proof.
  intros I NI NS. unfold add_body. set (s1 := if is_stat s b then _ else _).
  assert (Rb := no_root _ _ _ I NI).
  assert (Q : sp_b s1 = sp_b s) by (unfold s1; now destruct (is_stat s b)).
  eexists. split; [reflexivity|]. set (s' := set_nb _ _).
  assert (B : sp_b s' = upd (sp_b s) b (b_in (sp_b s b) true)) by (unfold s'; ss; unfold bod; rewrite Q; reflexivity).
  assert (K : forall y, kind s' y = kind s y). { intros y. unfold kind. rewrite B. vw. }
  assert (R : forall y, root s' y = root s y). { intros y. unfold root. rewrite B. vw. }
  assert (N : forall y, next s' y = next s y). { intros y. unfold next. rewrite B. vw. }
  assert (A : forall y, arbl s' y = arbl s y). { intros y. unfold arbl. rewrite B. vw. }
  assert (C : forall y, conl s' y = conl s y). { intros y. unfold conl. rewrite B. vw. }
  assert (SH : forall y, shl s' y = shl s y). { intros y. unfold shl. rewrite B. vw. }
  assert (ID : forall y, sb_idle (sp_b s' y) = sb_idle (sp_b s y)). { intros y. rewrite B. vw. }
  assert (INB : forall y, inb s' y <-> inb s y \/ y = b). { intros y. unfold inb. rewrite B, upd_spec. destruct (Nat.eqb_spec y b); subst; ss; split; auto. intros [?|?]; [auto|congruence]. }
  assert (E : sp_s s' = sp_s s /\ sp_a s' = sp_a s /\ sp_c s' = sp_c s /\ sp_sleep s' = sp_sleep s /\ sp_roused s' = sp_roused s /\ sp_didx s' = sp_didx s /\ sp_sidx s' = sp_sidx s /\ sp_arbs s' = sp_arbs s /\ sp_cache s' = sp_cache s /\ sp_cons s' = sp_cons s /\ sp_pool s' = sp_pool s /\ sp_locked s' = sp_locked s /\ sp_stamp s' = sp_stamp s /\ sp_na s' = sp_na s /\ sp_sb s' = sp_sb s /\ sp_nb s' = Nat.max (sp_nb s) (S b))
   by (unfold s', s1; destruct (is_stat s b); splits; reflexivity).
  destruct E as (E1 & E2 & E3 & E4 & E5 & E6 & E7 & E8 & E9 & E10 & E11 & E12 & E13 & E14 & E15 & E16).
  assert (BA : forall x, ba s' x = ba s x) by (intros x; unfold ba; now rewrite E2). assert (BB : forall x, bb s' x = bb s x) by (intros x; unfold bb; now rewrite E2).
  assert (TH : forall x, threaded s' x <-> threaded s x) by (intros x; unfold threaded; now rewrite A, BA).
  assert (LV : forall x, live s' x <-> live s x) by (intros x; unfold live; now rewrite TH, E9).
  assert (PR : forall y, present s y -> present s' y) by (intros y; unfold present; rewrite INB, E15; tauto).
  splits; auto. constructor; rewrite ?E1, ?E2, ?E3, ?E4, ?E5, ?E6, ?E7, ?E8, ?E9, ?E10, ?E11, ?E12, ?E13, ?E14, ?E15; try solve [apply I].
  - unfold s', s1. destruct (is_stat s b) eqn:S0; ss; [apply I|]. apply NoDup_snoc; [apply I|]. rewrite (i_dyn _ _ I). tauto.
  - unfold s', s1. destruct (is_stat s b) eqn:S0; ss; [|apply I]. apply NoDup_snoc; [apply I|]. rewrite (i_stat _ _ I). tauto.
  - intros y. rewrite INB, K, R. transitivity (In y (sp_dyn s) \/ (is_stat s b = false /\ y = b)).
    { unfold s', s1. destruct (is_stat s b) eqn:S0; ss; [intuition discriminate|rewrite In_snoc; intuition]. }
    unfold is_stat. rewrite kind_eqb_neq. rewrite (i_dyn _ _ I). split; [intros [?|[? ->]]; tauto|intros [[?| ->] ?]; tauto].
  - intros y. rewrite INB, K. transitivity (In y (sp_stat s) \/ (is_stat s b = true /\ y = b)).
    { unfold s', s1. destruct (is_stat s b) eqn:S0; ss; [rewrite In_snoc; intuition|intuition discriminate]. }
    unfold is_stat. rewrite kind_eqb_eq. rewrite (i_stat _ _ I). split; [intros [?|[? ->]]; tauto|intros [[?| ->] ?]; tauto].
  - intros y. rewrite INB, E16. intros [Hy| ->]; [apply (i_nb _ _ I) in Hy|]; lia.
  - rewrite INB, K. destruct (i_sb _ _ I). split; auto. intros [?|?]; auto.
  - intros y r. rewrite R, INB, K. intros Ey. destruct (i_root _ _ I y r Ey) as (X1 & X2 & X3 & l & X4 & X5). splits; auto. exists l. split; auto. eapply chain_ext; eauto.
  - intros r Hr. destruct (i_comp _ _ I r Hr) as (l & X1 & X2 & X3). exists l. splits; auto; [eapply chain_ext; eauto|]. intros y. rewrite R. auto.
  - intros y. rewrite R, N. apply I.
  - intros y. rewrite K, ID. apply I.
  - intros x y. rewrite SH. apply I.
  - intros y. rewrite SH. apply I.
  - intros x. rewrite K, R. apply I.
  - intros x. rewrite K, R. apply I.
  - intros x Hx. apply PR. now apply I.
  - intros c y. rewrite C. apply I.
  - intros y. rewrite C. apply I.
  - intros c Hc. destruct (i_con_ok _ _ I c Hc) as (X & Y & Z). auto.
  - intros c. rewrite !R. apply I.
  - intros c r. rewrite !R, !K. apply I.
  - intros x y. rewrite BA, BB, !A. apply I.
  - intros y. rewrite A. apply I.
  - intros x. rewrite TH. apply I.
  - intros x. rewrite TH, BA, BB, !R. apply I.
  - intros x. rewrite TH, BA, BB, !R. apply I.
  - intros x r. rewrite TH, BA, BB, !R, !K. apply I.
  - intros x. rewrite LV, BA, BB. apply I.
  - intros x y. rewrite !LV. unfold same_shapes. rewrite E2. apply I.
  - intros x. rewrite LV. apply I.
Qed.

(** *** RemoveBody *)
Lemma remove_body_ok s b : Core s [] -> inb s b -> (forall x, ss_in (sp_s s x) = true -> ss_body (sp_s s x) <> b) ->
  (forall c, sc_in (sp_c s c) = true -> sc_a (sp_c s c) <> b /\ sc_b (sp_c s c) <> b) ->
  exists s1 s', activate s b = Some s1 /\ remove_body s b = Some s' /\ Core s' [] /\ (forall y, inb s' y <-> inb s y /\ y <> b) /\ (forall y, kind s' y = kind s y) /\ (forall y, root s' y = root s1 y).
Proof.
  intros I0 IB NSH NCO. unfold remove_body. destruct (activate_ok s [] b I0) as (s1 & E1 & I & W & R1 & _). rewrite E1. exists s1.
  assert (Rb := activate_root _ _ _ _ I0 E1).
  assert (IB1 : inb s1 b) by (unfold inb; rewrite (y_in _ _ W); auto).
  rewrite <- (y_s _ _ W) in NSH. rewrite <- (y_c _ _ W) in NCO.
  set (s2 := if is_stat s1 b then _ else _). assert (Q : sp_b s2 = sp_b s1) by (unfold s2; now destruct (is_stat s1 b)).
  eexists. split; [reflexivity|]. split; [reflexivity|]. set (s' := upd_b _ _ _).
  assert (B : sp_b s' = upd (sp_b s1) b (b_in (sp_b s1 b) false)) by (unfold s'; ss; unfold bod; rewrite Q; reflexivity).
  assert (K : forall y, kind s' y = kind s1 y). { intros y. unfold kind. rewrite B. vw. }
  assert (R : forall y, root s' y = root s1 y). { intros y. unfold root. rewrite B. vw. }
  assert (N : forall y, next s' y = next s1 y). { intros y. unfold next. rewrite B. vw. }
  assert (A : forall y, arbl s' y = arbl s1 y). { intros y. unfold arbl. rewrite B. vw. }
  assert (C : forall y, conl s' y = conl s1 y). { intros y. unfold conl. rewrite B. vw. }
  assert (SH : forall y, shl s' y = shl s1 y). { intros y. unfold shl. rewrite B. vw. }
  assert (ID : forall y, sb_idle (sp_b s' y) = sb_idle (sp_b s1 y)). { intros y. rewrite B. vw. }
  assert (INB : forall y, inb s' y <-> inb s1 y /\ y <> b). { intros y. unfold inb. rewrite B, upd_spec. destruct (Nat.eqb_spec y b); subst; ss; split; try tauto; discriminate. }
  assert (E : sp_s s' = sp_s s1 /\ sp_a s' = sp_a s1 /\ sp_c s' = sp_c s1 /\ sp_sleep s' = sp_sleep s1 /\ sp_roused s' = sp_roused s1 /\ sp_didx s' = sp_didx s1 /\ sp_sidx s' = sp_sidx s1 /\ sp_arbs s' = sp_arbs s1 /\ sp_cache s' = sp_cache s1 /\ sp_cons s' = sp_cons s1 /\ sp_pool s' = sp_pool s1 /\ sp_locked s' = sp_locked s1 /\ sp_stamp s' = sp_stamp s1 /\ sp_na s' = sp_na s1 /\ sp_sb s' = sp_sb s1 /\ sp_nb s' = sp_nb s1)
   by (unfold s', s2; destruct (is_stat s1 b); splits; reflexivity).
  destruct E as (E2 & E3 & E4 & E5 & E6 & E7 & E8 & E9 & E10 & E11 & E12 & E13 & E14 & E15 & E16 & E17).
  assert (BA : forall x, ba s' x = ba s1 x) by (intros x; unfold ba; now rewrite E3). assert (BB : forall x, bb s' x = bb s1 x) by (intros x; unfold bb; now rewrite E3).
  assert (TH : forall x, threaded s' x <-> threaded s1 x) by (intros x; unfold threaded; now rewrite A, BA).
  assert (LV : forall x, live s' x <-> live s1 x) by (intros x; unfold live; now rewrite TH, E10).
  assert (PR : forall y, present s1 y -> y <> b -> present s' y) by (intros y; unfold present; rewrite INB, E16; tauto).
  splits; auto.
  2:{ intros y. rewrite INB. unfold inb. now rewrite (y_in _ _ W). }
  2:{ intros y. rewrite K. apply W. }
  constructor; rewrite ?E2, ?E3, ?E4, ?E5, ?E6, ?E7, ?E8, ?E9, ?E10, ?E11, ?E12, ?E13, ?E14, ?E15, ?E16, ?E17; try solve [apply I].
  - unfold s', s2. destruct (is_stat s1 b) eqn:S0; ss; [apply I|]. apply del_nodup, I.
  - unfold s', s2. destruct (is_stat s1 b) eqn:S0; ss; [|apply I]. apply del_nodup, I.
  - intros y. rewrite INB, K, R. transitivity (In y (sp_dyn s1) /\ (is_stat s1 b = true \/ y <> b)).
    { unfold s', s2. destruct (is_stat s1 b) eqn:S0; ss; [tauto|rewrite del_In by apply I]. intuition discriminate. }
    unfold is_stat. rewrite kind_eqb_eq. rewrite (i_dyn _ _ I). destruct (Nat.eq_dec y b) as [->|]; tauto.
  - intros y. rewrite INB, K. transitivity (In y (sp_stat s1) /\ (is_stat s1 b = false \/ y <> b)).
    { unfold s', s2. destruct (is_stat s1 b) eqn:S0; ss; [rewrite del_In by apply I|tauto]. intuition discriminate. }
    unfold is_stat. rewrite kind_eqb_neq. rewrite (i_stat _ _ I). destruct (Nat.eq_dec y b) as [->|]; tauto.
  - intros y. rewrite INB. intros [Hy _]. now apply I.
  - rewrite INB, K. destruct (i_sb _ _ I). split; auto. tauto.
  - intros y r. rewrite R, INB, K. intros Ey. destruct (i_root _ _ I y r Ey) as (X1 & X2 & X3 & l & X4 & X5). splits; auto; [congruence|]. exists l. split; auto. eapply chain_ext; eauto.
  - intros r Hr. destruct (i_comp _ _ I r Hr) as (l & X1 & X2 & X3). exists l. splits; auto; [eapply chain_ext; eauto|]. intros y. rewrite R. auto.
  - intros y. rewrite R, N. apply I.
  - intros y. rewrite K, ID. apply I.
  - intros x y. rewrite SH. apply I.
  - intros y. rewrite SH. apply I.
  - intros x. rewrite K, R. apply I.
  - intros x. rewrite K, R. apply I.
  - intros x Hx. apply PR; auto. now apply I.
  - intros c y. rewrite C. apply I.
  - intros y. rewrite C. apply I.
  - intros c Hc. destruct (i_con_ok _ _ I c Hc) as (X & Y & Z). destruct (NCO c Hc). auto.
  - intros c. rewrite !R. apply I.
  - intros c r. rewrite !R, !K. apply I.
  - intros x y. rewrite BA, BB, !A. apply I.
  - intros y. rewrite A. apply I.
  - intros x. rewrite TH. apply I.
  - intros x. rewrite TH, BA, BB, !R. apply I.
  - intros x. rewrite TH, BA, BB, !R. apply I.
  - intros x r. rewrite TH, BA, BB, !R, !K. apply I.
  - intros x. rewrite LV, BA, BB. apply I.
  - intros x y. rewrite !LV. unfold same_shapes. rewrite E3. apply I.
  - intros x. rewrite LV. apply I.
Qed.

(** *** AddShape *)
Lemma add_shape_ok s sh : Core s [] -> ss_in (sp_s s sh) = false -> present s (ss_body (sp_s s sh)) ->
  exists s', add_shape s sh = Some s' /\ Core s' [] /\ (forall y, sb_in (sp_b s' y) = sb_in (sp_b s y)) /\ (forall y, kind s' y = kind s y) /\
    sp_s s' = upd (sp_s s) sh (mkSS (ss_body (sp_s s sh)) true (ss_sensor (sp_s s sh))) /\ (forall y, root s' y = root s y \/ root s' y = None) /\ root s' (ss_body (sp_s s sh)) = None /\ sp_c s' = sp_c s /\ sp_log s' = sp_log s.
Proof.
  intros I0 NI PB. unfold add_shape. set (b := ss_body (sp_s s sh)) in *.
  assert (ACT : exists s1, (if is_stat s b then Some s else activate s b) = Some s1 /\ Core s1 [] /\ Wakes s s1 /\ root s1 b = None).
  { destruct (is_stat s b) eqn:S0.
    - exists s. splits; auto; [apply wakes_refl|]. unfold is_stat in S0. apply kind_eqb_eq in S0. eapply stat_root; eauto.
    - destruct (activate_ok s [] b I0) as (s1 & E1 & I & W & _). exists s1. splits; auto. apply (activate_root s [] b s1); auto. }
  destruct ACT as (s1 & E1 & I & W & Rb). rewrite E1. clear E1.
  assert (NI1 : ss_in (sp_s s1 sh) = false) by (rewrite (y_s _ _ W); auto). assert (Bb : ss_body (sp_s s1 sh) = b) by (rewrite (y_s _ _ W); reflexivity).
  assert (PB1 : present s1 b) by (unfold present, inb in *; now rewrite (y_in _ _ W), (y_sb _ _ W)).
  assert (ND : ~ In sh (sp_didx s1)) by (rewrite (i_didx _ _ I); intros (X & _); congruence).
  assert (NS : ~ In sh (sp_sidx s1)) by (rewrite (i_sidx _ _ I); intros (X & _); congruence).
  set (s2 := upd_b s1 b _). set (s3 := set_s s2 _). assert (KS : is_stat s3 b = is_stat s1 b). { unfold is_stat. replace (kind s3 b) with (kind s1 b); auto. unfold s3, s2. vw. }
  rewrite KS. change (sp_sidx s3) with (sp_sidx s1). change (sp_didx s3) with (sp_didx s1). apply memb_false in ND, NS. rewrite ND, NS. apply memb_false in ND, NS.
  assert (EX : exists s', (if is_stat s1 b then Some (set_sidx s3 (sp_sidx s1 ++ [sh])) else Some (set_didx s3 (sp_didx s1 ++ [sh]))) = Some s' /\
     s' = set_sidx (set_didx s3 (if is_stat s1 b then sp_didx s1 else sp_didx s1 ++ [sh])) (if is_stat s1 b then sp_sidx s1 ++ [sh] else sp_sidx s1)).
  { destruct (is_stat s1 b); eexists; split; reflexivity. }
  destruct EX as (s' & E' & D'). rewrite E'. exists s'. split; auto. clear E'.
  assert (B : sp_b s' = upd (sp_b s1) b (b_shapes (sp_b s1 b) (shl s1 b ++ [sh]))) by (subst s'; reflexivity).
  assert (K : forall y, kind s' y = kind s1 y). { intros y. unfold kind. rewrite B. vw. }
  assert (R : forall y, root s' y = root s1 y). { intros y. unfold root. rewrite B. vw. }
  assert (N : forall y, next s' y = next s1 y). { intros y. unfold next. rewrite B. vw. }
  assert (A : forall y, arbl s' y = arbl s1 y). { intros y. unfold arbl. rewrite B. vw. }
  assert (C : forall y, conl s' y = conl s1 y). { intros y. unfold conl. rewrite B. vw. }
  assert (SH : forall y, shl s' y = if Nat.eqb y b then shl s1 b ++ [sh] else shl s1 y). { intros y. unfold shl. rewrite B. vw. }
  assert (ID : forall y, sb_idle (sp_b s' y) = sb_idle (sp_b s1 y)). { intros y. rewrite B. vw. }
  assert (INB : forall y, inb s' y <-> inb s1 y). { intros y. unfold inb. rewrite B, upd_spec. destruct (Nat.eqb_spec y b); subst; reflexivity. }
  assert (SF : sp_s s' = upd (sp_s s1) sh (mkSS b true (ss_sensor (sp_s s1 sh)))) by (subst s'; reflexivity).
  assert (SB : forall x, ss_body (sp_s s' x) = ss_body (sp_s s1 x)) by (intros x; rewrite SF, upd_spec; destruct (Nat.eqb_spec x sh); subst; auto).
  assert (SI : forall x, ss_in (sp_s s' x) = true <-> ss_in (sp_s s1 x) = true \/ x = sh).
  { intros x; rewrite SF, upd_spec; destruct (Nat.eqb_spec x sh); subst; cbn; [tauto|]. split; [tauto|]. intros [?|?]; [auto|congruence]. }
  assert (E : sp_a s' = sp_a s1 /\ sp_c s' = sp_c s1 /\ sp_dyn s' = sp_dyn s1 /\ sp_stat s' = sp_stat s1 /\ sp_sleep s' = sp_sleep s1 /\ sp_roused s' = sp_roused s1 /\ sp_arbs s' = sp_arbs s1 /\ sp_cache s' = sp_cache s1 /\ sp_cons s' = sp_cons s1 /\ sp_pool s' = sp_pool s1 /\ sp_locked s' = sp_locked s1 /\ sp_stamp s' = sp_stamp s1 /\ sp_na s' = sp_na s1 /\ sp_sb s' = sp_sb s1 /\ sp_nb s' = sp_nb s1)
   by (subst s'; splits; reflexivity).
  destruct E as (E2 & E3 & E4 & E5 & E6 & E7 & E8 & E9 & E10 & E11 & E12 & E13 & E14 & E15 & E16).
  assert (BA : forall x, ba s' x = ba s1 x) by (intros x; unfold ba; now rewrite E2). assert (BB : forall x, bb s' x = bb s1 x) by (intros x; unfold bb; now rewrite E2).
  assert (TH : forall x, threaded s' x <-> threaded s1 x) by (intros x; unfold threaded; now rewrite A, BA).
  assert (LV : forall x, live s' x <-> live s1 x) by (intros x; unfold live; now rewrite TH, E9).
  assert (PR : forall y, present s' y <-> present s1 y) by (intros y; unfold present; rewrite INB, E15; tauto).
  splits.
  2:{ intros y. rewrite B, upd_spec. rewrite <- (y_in _ _ W). destruct (Nat.eqb_spec y b); subst; reflexivity. }
  2:{ intros y. rewrite K. apply W. }
  2:{ rewrite SF, (y_s _ _ W). reflexivity. }
  2:{ intros y. rewrite R. apply W. }
  2:{ rewrite R. auto. }
  2:{ rewrite E3. apply W. }
  2:{ subst s'. transitivity (sp_log s1); [reflexivity|apply W]. }
  constructor; rewrite ?E2, ?E3, ?E4, ?E5, ?E6, ?E7, ?E8, ?E9, ?E10, ?E11, ?E12, ?E13, ?E14, ?E15, ?E16; try solve [apply I].
  - intros y. rewrite INB, K, R. apply I.
  - intros y. rewrite INB, K. apply I.
  - intros y. rewrite INB. apply I.
  - rewrite INB, K. apply I.
  - intros y r. rewrite R, INB, K. intros Ey. destruct (i_root _ _ I y r Ey) as (X1 & X2 & X3 & l & X4 & X5). splits; auto. exists l. split; auto. eapply chain_ext; eauto.
  - intros r Hr. destruct (i_comp _ _ I r Hr) as (l & X1 & X2 & X3). exists l. splits; auto; [eapply chain_ext; eauto|]. intros y. rewrite R. auto.
  - intros y. rewrite R, N. apply I.
  - intros y. rewrite K, ID. apply I.
  - intros x y. rewrite SH, SB, SI. destruct (Nat.eqb_spec y b) as [->|Ny].
    + rewrite In_snoc, (i_shp _ _ I). split; [intros [?| ->]; tauto|intros [[?| ->] ?]; auto].
    + rewrite (i_shp _ _ I). split; [tauto|]. intros [[?| ->] ?]; auto. congruence.
  - intros y. rewrite SH. destruct (Nat.eqb_spec y b) as [->|Ny]; [|apply I]. apply NoDup_snoc; [apply I|]. rewrite (i_shp _ _ I). intros [? _]. congruence.
  - subst s'. ss. destruct (is_stat s1 b); [apply I|]. apply NoDup_snoc; [apply I|auto].
  - subst s'. ss. destruct (is_stat s1 b); [|apply I]. apply NoDup_snoc; [apply I|auto].
  - intros x. rewrite SB, SI, K, R. transitivity (In x (sp_didx s1) \/ (is_stat s1 b = false /\ x = sh)).
    { subst s'. ss. destruct (is_stat s1 b); [intuition discriminate|rewrite In_snoc; tauto]. }
    unfold is_stat. rewrite kind_eqb_neq. rewrite (i_didx _ _ I). split; [intros [?|[? ->]]; rewrite ?Bb; tauto|intros [[?| ->] ?]; rewrite ?Bb in *; tauto].
  - intros x. rewrite SB, SI, K, R. transitivity (In x (sp_sidx s1) \/ (is_stat s1 b = true /\ x = sh)).
    { subst s'. ss. destruct (is_stat s1 b); [rewrite In_snoc; tauto|intuition discriminate]. }
    unfold is_stat. rewrite kind_eqb_eq. rewrite (i_sidx _ _ I). split; [intros [?|[? ->]]; rewrite ?Bb; tauto|intros [[?| ->] ?]; rewrite ?Bb in *; tauto].
  - intros x. rewrite PR, SB, SI. intros [Hx| ->]; [now apply I|]. now rewrite Bb.
  - intros c y. rewrite C. apply I.
  - intros y. rewrite C. apply I.
  - intros c. rewrite !PR. apply I.
  - intros c. rewrite !R. apply I.
  - intros c r. rewrite !R, !K. apply I.
  - intros x y. rewrite BA, BB, !A. apply I.
  - intros y. rewrite A. apply I.
  - intros x. rewrite TH. apply I.
  - intros x. rewrite TH, BA, BB, !R. apply I.
  - intros x. rewrite TH, BA, BB, !R. apply I.
  - intros x r. rewrite TH, BA, BB, !R, !K. apply I.
  - intros x. rewrite LV, BA, BB, !SI, !SB. intros L. destruct (i_live _ _ I x L) as (X1 & X2 & X3). tauto.
  - intros x y. rewrite !LV. unfold same_shapes. rewrite E2. apply I.
  - intros x. rewrite LV. apply I.
Qed.

(** *** AddConstraint, RemoveConstraint *)
Lemma add_con_ok s c : Core s [] -> sc_in (sp_c s c) = false -> sc_a (sp_c s c) <> sc_b (sp_c s c) -> present s (sc_a (sp_c s c)) -> present s (sc_b (sp_c s c)) ->
  exists s', add_con s c = Some s' /\ Core s' [] /\ (forall y, sb_in (sp_b s' y) = sb_in (sp_b s y)) /\ (forall y, kind s' y = kind s y) /\
    sp_c s' = upd (sp_c s) c (mkSC (sc_a (sp_c s c)) (sc_b (sp_c s c)) true (sc_collide (sp_c s c))) /\ sp_s s' = sp_s s /\ (forall y, root s' y = root s y \/ root s' y = None) /\
    root s' (sc_a (sp_c s c)) = None /\ root s' (sc_b (sp_c s c)) = None /\ sp_log s' = sp_log s.
Proof.
  intros I0 NI NE PA PB. unfold add_con. set (a := sc_a (sp_c s c)) in *. set (b := sc_b (sp_c s c)) in *.
  destruct (activate_ok s [] a I0) as (s1 & E1 & I1 & W1 & _). rewrite E1. destruct (activate_ok s1 [] b I1) as (s2 & E2' & I & W2 & _). rewrite E2'.
  assert (W := wakes_trans _ _ _ W1 W2). assert (Ra : root s2 a = None). { destruct (y_root _ _ W2 a) as [->| ->]; auto. apply (activate_root s [] a s1); auto. }
  assert (Rb : root s2 b = None) by (apply (activate_root s1 [] b s2); auto).
  assert (Ca : sc_a (sp_c s2 c) = a) by (rewrite (y_c _ _ W); reflexivity). assert (Cb : sc_b (sp_c s2 c) = b) by (rewrite (y_c _ _ W); reflexivity).
  assert (NI1 : sc_in (sp_c s2 c) = false) by (rewrite (y_c _ _ W); auto).
  assert (PRS : forall y, present s y -> present s2 y) by (intros y; unfold present, inb; now rewrite (y_in _ _ W), (y_sb _ _ W)).
  clear E1 E2'. eexists. split; [reflexivity|]. set (s' := set_c _ _).
  assert (CL : forall y, conl s' y = if Nat.eqb y a then c :: conl s2 y else if Nat.eqb y b then c :: conl s2 y else conl s2 y).
  { intros y. unfold conl, s'. ss. rewrite !upd_spec. unfold bod. destruct (Nat.eqb_spec y b), (Nat.eqb_spec y a); subst; try congruence; try reflexivity. ss. destruct (Nat.eqb_spec b a); [congruence|reflexivity]. }
  assert (K : forall y, kind s' y = kind s2 y) by (unfold s'; vw).
  assert (R : forall y, root s' y = root s2 y) by (unfold s'; vw).
  assert (N : forall y, next s' y = next s2 y) by (unfold s'; vw).
  assert (A : forall y, arbl s' y = arbl s2 y) by (unfold s'; vw).
  assert (SH : forall y, shl s' y = shl s2 y) by (unfold s'; vw).
  assert (ID : forall y, sb_idle (sp_b s' y) = sb_idle (sp_b s2 y)) by (unfold s'; vw).
  assert (IN : forall y, sb_in (sp_b s' y) = sb_in (sp_b s2 y)) by (unfold s'; vw).
  assert (INB : forall y, inb s' y <-> inb s2 y) by (intros y; unfold inb; now rewrite IN).
  assert (SF : sp_c s' = upd (sp_c s2) c (mkSC a b true (sc_collide (sp_c s2 c)))) by (unfold s'; ss; now rewrite (y_c _ _ W)).
  assert (CA : forall x, sc_a (sp_c s' x) = sc_a (sp_c s2 x)) by (intros x; rewrite SF, upd_spec; destruct (Nat.eqb_spec x c); subst; auto).
  assert (CB : forall x, sc_b (sp_c s' x) = sc_b (sp_c s2 x)) by (intros x; rewrite SF, upd_spec; destruct (Nat.eqb_spec x c); subst; auto).
  assert (CI : forall x, sc_in (sp_c s' x) = true <-> sc_in (sp_c s2 x) = true \/ x = c).
  { intros x; rewrite SF, upd_spec; destruct (Nat.eqb_spec x c); subst; cbn; [tauto|]. split; [tauto|]. intros [?|?]; [auto|congruence]. }
  assert (E : sp_a s' = sp_a s2 /\ sp_s s' = sp_s s2 /\ sp_dyn s' = sp_dyn s2 /\ sp_stat s' = sp_stat s2 /\ sp_sleep s' = sp_sleep s2 /\ sp_roused s' = sp_roused s2 /\ sp_arbs s' = sp_arbs s2 /\ sp_cache s' = sp_cache s2 /\ sp_didx s' = sp_didx s2 /\ sp_sidx s' = sp_sidx s2 /\ sp_pool s' = sp_pool s2 /\ sp_locked s' = sp_locked s2 /\ sp_stamp s' = sp_stamp s2 /\ sp_na s' = sp_na s2 /\ sp_sb s' = sp_sb s2 /\ sp_nb s' = sp_nb s2)
   by (splits; reflexivity).
  destruct E as (E2 & E3 & E4 & E5 & E6 & E7 & E8 & E9 & E10 & E11 & E12 & E13 & E14 & E15 & E16 & E17). assert (Eco : sp_cons s' = sp_cons s2 ++ [c]) by reflexivity.
  assert (BA : forall x, ba s' x = ba s2 x) by (intros x; unfold ba; now rewrite E2). assert (BB : forall x, bb s' x = bb s2 x) by (intros x; unfold bb; now rewrite E2).
  assert (TH : forall x, threaded s' x <-> threaded s2 x) by (intros x; unfold threaded; now rewrite A, BA).
  assert (LV : forall x, live s' x <-> live s2 x) by (intros x; unfold live; now rewrite TH, E9).
  assert (PR : forall y, present s' y <-> present s2 y) by (intros y; unfold present; rewrite INB, E16; tauto).
  splits; auto.
  2:{ intros y. rewrite IN. apply W. }
  2:{ intros y. rewrite K. apply W. }
  2:{ rewrite SF, (y_c _ _ W). reflexivity. }
  2:{ rewrite E3. apply W. }
  2:{ intros y. rewrite R. apply W. }
  2:{ rewrite R. auto. }
  2:{ rewrite R. auto. }
  2:{ transitivity (sp_log s2); [reflexivity|apply W]. }
  clearbody s'.
  constructor; rewrite ?E2, ?E3, ?E4, ?E5, ?E6, ?E7, ?E8, ?E9, ?E10, ?E11, ?E12, ?E13, ?E14, ?E15, ?E16, ?E17; try solve [apply I].
  - intros y. rewrite INB, K, R. apply I.
  - intros y. rewrite INB, K. apply I.
  - intros y. rewrite INB. apply I.
  - rewrite INB, K. apply I.
  - intros y r. rewrite R, INB, K. intros Ey. destruct (i_root _ _ I y r Ey) as (X1 & X2 & X3 & l & X4 & X5). splits; auto. exists l. split; auto. eapply chain_ext; eauto.
  - intros r Hr. destruct (i_comp _ _ I r Hr) as (l & X1 & X2 & X3). exists l. splits; auto; [eapply chain_ext; eauto|]. intros y. rewrite R. auto.
  - intros y. rewrite R, N. apply I.
  - intros y. rewrite K, ID. apply I.
  - intros x y. rewrite SH. apply I.
  - intros y. rewrite SH. apply I.
  - intros x. rewrite K, R. apply I.
  - intros x. rewrite K, R. apply I.
  - intros x. rewrite PR. apply I.
  - intros x y. rewrite CA, CB, CI. transitivity (In x (conl s2 y) \/ (x = c /\ (y = a \/ y = b))).
    { rewrite CL. destruct (Nat.eqb_spec y a), (Nat.eqb_spec y b); cbn; intuition. }
    rewrite (i_con _ _ I). split; [intros [?|[-> [->| ->]]]; tauto|intros [[?| ->] [X|X]]; subst y; rewrite ?Ca, ?Cb; auto].
  - intros y. assert (NI2 : ~ In c (conl s2 y)) by (rewrite (i_con _ _ I); intros [? _]; congruence). rewrite CL. destruct (Nat.eqb_spec y a), (Nat.eqb_spec y b); try apply I; constructor; auto; apply I.
  - intros x. rewrite CA, CB, CI, !PR. intros [X| ->]; [now apply I|]. rewrite Ca, Cb. auto.
  - rewrite Eco. apply NoDup_snoc; [apply I|]. rewrite (i_cons _ _ I). intros [? _]. congruence.
  - intros x. rewrite Eco, In_snoc, CA, CB, CI, !R, (i_cons _ _ I). split; [intros [?| ->]; rewrite ?Ca, ?Cb; tauto|intros [[?| ->] ?]; tauto].
  - intros x r. rewrite CA, CB, CI, !R, !K. intros [X| ->]; [now apply I|]. rewrite Ca, Cb, Ra, Rb. split; discriminate.
  - intros x y. rewrite BA, BB, !A. apply I.
  - intros y. rewrite A. apply I.
  - intros x. rewrite TH. apply I.
  - intros x. rewrite TH, BA, BB, !R. apply I.
  - intros x. rewrite TH, BA, BB, !R. apply I.
  - intros x r. rewrite TH, BA, BB, !R, !K. apply I.
  - intros x. rewrite LV, BA, BB. apply I.
  - intros x y. rewrite !LV. unfold same_shapes. rewrite E2. apply I.
  - intros x. rewrite LV. apply I.
Qed.
Lemma remove_con_ok s c : Core s [] -> sc_in (sp_c s c) = true ->
  exists s', remove_con s c = Some s' /\ Core s' [] /\ (forall y, sb_in (sp_b s' y) = sb_in (sp_b s y)) /\ (forall y, kind s' y = kind s y) /\
    sp_c s' = upd (sp_c s) c (mkSC (sc_a (sp_c s c)) (sc_b (sp_c s c)) false (sc_collide (sp_c s c))) /\ sp_s s' = sp_s s /\ (forall y, root s' y = root s y \/ root s' y = None) /\
    root s' (sc_a (sp_c s c)) = None /\ root s' (sc_b (sp_c s c)) = None /\ sp_log s' = sp_log s.
Proof.
  intros I0 NI. unfold remove_con. set (a := sc_a (sp_c s c)) in *. set (b := sc_b (sp_c s c)) in *.
  destruct (activate_ok s [] a I0) as (s1 & E1 & I1 & W1 & _). rewrite E1. destruct (activate_ok s1 [] b I1) as (s2 & E2' & I & W2 & _). rewrite E2'.
  assert (W := wakes_trans _ _ _ W1 W2). assert (Ra : root s2 a = None). { destruct (y_root _ _ W2 a) as [->| ->]; auto. apply (activate_root s [] a s1); auto. }
  assert (Rb : root s2 b = None) by (apply (activate_root s1 [] b s2); auto).
  assert (Ca : sc_a (sp_c s2 c) = a) by (rewrite (y_c _ _ W); reflexivity). assert (Cb : sc_b (sp_c s2 c) = b) by (rewrite (y_c _ _ W); reflexivity).
  assert (NI1 : sc_in (sp_c s2 c) = true) by (rewrite (y_c _ _ W); auto).
  destruct (i_con_ok _ _ I c NI1) as (NE & PA & PB). rewrite Ca, Cb in *.
  clear E1 E2'. unfold body_remove_con at 1. set (s3 := set_cons s2 _). change (sb_cons (bod s3 a)) with (conl s2 a).
  assert (M1 : In c (conl s2 a)) by (apply (i_con _ _ I); auto). assert (M2 : In c (conl s2 b)) by (apply (i_con _ _ I); auto).
  apply memb_In in M1. rewrite M1. unfold body_remove_con. set (s4 := upd_b s3 a _).
  assert (Q : sb_cons (bod s4 b) = conl s2 b) by (unfold s4, s3; ss; rewrite upd_other by congruence; reflexivity). rewrite Q. apply memb_In in M2. rewrite M2.
  eexists. split; [reflexivity|]. set (s' := set_c _ _).
  assert (CL : forall y, conl s' y = if Nat.eqb y a then del c (conl s2 y) else if Nat.eqb y b then del c (conl s2 y) else conl s2 y).
  { intros y. unfold conl, s', s4, s3. ss. rewrite !upd_spec. unfold bod. destruct (Nat.eqb_spec y b), (Nat.eqb_spec y a); subst; try congruence; try reflexivity. }
  assert (K : forall y, kind s' y = kind s2 y) by (unfold s', s4, s3; vw).
  assert (R : forall y, root s' y = root s2 y) by (unfold s', s4, s3; vw).
  assert (N : forall y, next s' y = next s2 y) by (unfold s', s4, s3; vw).
  assert (A : forall y, arbl s' y = arbl s2 y) by (unfold s', s4, s3; vw).
  assert (SH : forall y, shl s' y = shl s2 y) by (unfold s', s4, s3; vw).
  assert (ID : forall y, sb_idle (sp_b s' y) = sb_idle (sp_b s2 y)) by (unfold s', s4, s3; vw).
  assert (IN : forall y, sb_in (sp_b s' y) = sb_in (sp_b s2 y)) by (unfold s', s4, s3; vw).
  assert (INB : forall y, inb s' y <-> inb s2 y) by (intros y; unfold inb; now rewrite IN).
  assert (SF : sp_c s' = upd (sp_c s2) c (mkSC a b false (sc_collide (sp_c s2 c)))) by (unfold s', s4, s3; ss; now rewrite (y_c _ _ W)).
  assert (CA : forall x, sc_a (sp_c s' x) = sc_a (sp_c s2 x)) by (intros x; rewrite SF, upd_spec; destruct (Nat.eqb_spec x c); subst; auto).
  assert (CB : forall x, sc_b (sp_c s' x) = sc_b (sp_c s2 x)) by (intros x; rewrite SF, upd_spec; destruct (Nat.eqb_spec x c); subst; auto).
  assert (CI : forall x, sc_in (sp_c s' x) = true <-> sc_in (sp_c s2 x) = true /\ x <> c).
  { intros x; rewrite SF, upd_spec; destruct (Nat.eqb_spec x c); subst; cbn; [intuition discriminate|tauto]. }
  assert (E : sp_a s' = sp_a s2 /\ sp_s s' = sp_s s2 /\ sp_dyn s' = sp_dyn s2 /\ sp_stat s' = sp_stat s2 /\ sp_sleep s' = sp_sleep s2 /\ sp_roused s' = sp_roused s2 /\ sp_arbs s' = sp_arbs s2 /\ sp_cache s' = sp_cache s2 /\ sp_didx s' = sp_didx s2 /\ sp_sidx s' = sp_sidx s2 /\ sp_pool s' = sp_pool s2 /\ sp_locked s' = sp_locked s2 /\ sp_stamp s' = sp_stamp s2 /\ sp_na s' = sp_na s2 /\ sp_sb s' = sp_sb s2 /\ sp_nb s' = sp_nb s2)
   by (splits; reflexivity).
  destruct E as (E2 & E3 & E4 & E5 & E6 & E7 & E8 & E9 & E10 & E11 & E12 & E13 & E14 & E15 & E16 & E17). assert (Eco : sp_cons s' = del c (sp_cons s2)) by reflexivity.
  assert (BA : forall x, ba s' x = ba s2 x) by (intros x; unfold ba; now rewrite E2). assert (BB : forall x, bb s' x = bb s2 x) by (intros x; unfold bb; now rewrite E2).
  assert (TH : forall x, threaded s' x <-> threaded s2 x) by (intros x; unfold threaded; now rewrite A, BA).
  assert (LV : forall x, live s' x <-> live s2 x) by (intros x; unfold live; now rewrite TH, E9).
  assert (PR : forall y, present s' y <-> present s2 y) by (intros y; unfold present; rewrite INB, E16; tauto).
  splits; auto.
  2:{ intros y. rewrite IN. apply W. }
  2:{ intros y. rewrite K. apply W. }
  2:{ rewrite SF, (y_c _ _ W). reflexivity. }
  2:{ rewrite E3. apply W. }
  2:{ intros y. rewrite R. apply W. }
  2:{ rewrite R. auto. }
  2:{ rewrite R. auto. }
  2:{ transitivity (sp_log s2); [reflexivity|apply W]. }
  clearbody s'.
  constructor; rewrite ?E2, ?E3, ?E4, ?E5, ?E6, ?E7, ?E8, ?E9, ?E10, ?E11, ?E12, ?E13, ?E14, ?E15, ?E16, ?E17; try solve [apply I].
  - intros y. rewrite INB, K, R. apply I.
  - intros y. rewrite INB, K. apply I.
  - intros y. rewrite INB. apply I.
  - rewrite INB, K. apply I.
  - intros y r. rewrite R, INB, K. intros Ey. destruct (i_root _ _ I y r Ey) as (X1 & X2 & X3 & l & X4 & X5). splits; auto. exists l. split; auto. eapply chain_ext; eauto.
  - intros r Hr. destruct (i_comp _ _ I r Hr) as (l & X1 & X2 & X3). exists l. splits; auto; [eapply chain_ext; eauto|]. intros y. rewrite R. auto.
  - intros y. rewrite R, N. apply I.
  - intros y. rewrite K, ID. apply I.
  - intros x y. rewrite SH. apply I.
  - intros y. rewrite SH. apply I.
  - intros x. rewrite K, R. apply I.
  - intros x. rewrite K, R. apply I.
  - intros x. rewrite PR. apply I.
  - intros x y. rewrite CA, CB, CI. transitivity (In x (conl s2 y) /\ (x <> c \/ (y <> a /\ y <> b))).
    { rewrite CL. destruct (Nat.eqb_spec y a), (Nat.eqb_spec y b); rewrite ?del_In by apply I; tauto. }
    rewrite (i_con _ _ I). destruct (Nat.eq_dec x c) as [->|]; [rewrite Ca, Cb|tauto]. intuition congruence.
  - intros y. rewrite CL. destruct (Nat.eqb_spec y a), (Nat.eqb_spec y b); try apply del_nodup; apply I.
  - intros x. rewrite CA, CB, CI, !PR. intros [X _]. now apply I.
  - rewrite Eco. apply del_nodup, I.
  - intros x. rewrite Eco, del_In by apply I. rewrite CA, CB, CI, !R, (i_cons _ _ I). tauto.
  - intros x r. rewrite CA, CB, CI, !R, !K. intros [X _]. now apply I.
  - intros x y. rewrite BA, BB, !A. apply I.
  - intros y. rewrite A. apply I.
  - intros x. rewrite TH. apply I.
  - intros x. rewrite TH, BA, BB, !R. apply I.
  - intros x. rewrite TH, BA, BB, !R. apply I.
  - intros x r. rewrite TH, BA, BB, !R, !K. apply I.
  - intros x. rewrite LV, BA, BB. apply I.
  - intros x y. rewrite !LV. unfold same_shapes. rewrite E2. apply I.
  - intros x. rewrite LV. apply I.
Qed.
End Ops.
