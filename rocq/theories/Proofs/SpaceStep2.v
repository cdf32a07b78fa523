(** The whole step: touching pairs, components, ageing, postSolve; and the protocol of the callbacks. *)
From Coq Require Import List Arith NArith Bool Lia Permutation FunctionalExtensionality Relations.
From Verif Require Import SpecSpace.
From Verif.Model Require Import HashSet Space.
From Verif.Proofs Require Import Util SpaceLib SpaceInv SpaceAct SpaceOps SpaceOps2 SpaceStep SpaceSleep SpaceComp SpaceComp2.
Import ListNotations.

Section Step2.
Context {T : Type} `{Time T}.
Notation Sp := (Space T).
Implicit Types (s : Sp) (b x c r : nat).

(** ** Touching pairs *)
Definition HitSpec s h s' : Prop :=
  if rejected s h then s' = s else
  let x := hit_arb s h in let '(st, act, evs) := answer (hit_st s h) h (solid s h) in
  sp_b s' = sp_b s /\ sp_s s' = sp_s s /\ sp_c s' = sp_c s /\ sp_didx s' = sp_didx s /\ sp_stamp s' = sp_stamp s /\ sp_sb s' = sp_sb s /\ sp_dyn s' = sp_dyn s /\ sp_sleep s' = sp_sleep s /\ sp_cons s' = sp_cons s /\
  sp_arbs s' = (if act then sp_arbs s ++ [x] else sp_arbs s) /\ sp_log s' = sp_log s ++ evs /\
  (forall y, sp_a s' y = if Nat.eqb y x then mkSA (h_a h) (h_b h) (ss_body (sp_s s (h_a h))) (ss_body (sp_s s (h_b h))) st (sp_stamp s) else sp_a s y) /\
  (forall y, live s' y <-> live s y \/ y = x) /\ (forall y, threaded s' y <-> threaded s y) /\ ~ threaded s x /\ In x (sp_cache s') /\ ~ In x (sp_arbs s) /\
  (live s x -> hit_pair h x s /\ hit_st s h = sa_state (sp_a s x)) /\ (~ live s x -> hit_st s h = AFirst) /\ (forall y, live s y -> hit_pair h y s -> y = x) /\ incl (sp_cache s) (sp_cache s').
Record HitsOk s (hs : list Hit) : Prop := {
  hk_in : forall h, In h hs -> HitOk s h; hk_new : NoDup (map h_new hs); hk_pairs : distinct_pairs hs; hk_arbs : forall h x, In h hs -> In x (sp_arbs s) -> ~ hit_pair h x s }.
Inductive HitsRel : Sp -> list Hit -> Sp -> Prop :=
| hr_nil s : HitsRel s [] s
| hr_cons s h s1 hs s' : Core s (sp_arbs s) -> HitOk s h -> HitSpec s h s1 -> HitsRel s1 hs s' -> HitsRel s (h :: hs) s'.
Lemma hits_frame s hs s' : HitsRel s hs s' -> sp_b s' = sp_b s /\ sp_s s' = sp_s s /\ sp_c s' = sp_c s /\ sp_didx s' = sp_didx s /\ sp_stamp s' = sp_stamp s /\ sp_sb s' = sp_sb s /\ sp_dyn s' = sp_dyn s /\ sp_sleep s' = sp_sleep s /\ sp_cons s' = sp_cons s.
Proof.
  induction 1 as [s|s h s1 hs s' IC HO HS HR IH]; [splits; reflexivity|]. unfold HitSpec in HS. destruct (rejected s h); [now subst|]. cbv zeta in HS. destruct (answer _ _ _) as [[st act] evs].
  destruct HS as (E1 & E2 & E3 & E4 & E5 & E6 & E7 & E8 & E9 & _). destruct IH as (F1 & F2 & F3 & F4 & F5 & F6 & F7 & F8 & F9). splits; congruence.
Qed.
Lemma hits_ok hs : forall s, Core s (sp_arbs s) -> HitsOk s hs -> exists s', hits_step s hs = Some s' /\ Core s' (sp_arbs s') /\ HitsRel s hs s'.
Proof.
  induction hs as [|h hs IH]; intros s I HO; cbn [hits_step]; [exists s; splits; auto; constructor|].
  destruct HO as [HI HN HP HA]. assert (HO := HI h (or_introl eq_refl)). destruct (hit_ok s h I HO) as (s1 & E & I1 & HS); [intros x Hx; apply HA; cbn; auto|].
  change (HitSpec s h s1) in HS. rewrite E. cbn [map] in HN. apply NoDup_cons_iff in HN as [HN1 HN2]. inversion HP as [|h' hs' HP1 HP2]; subst. rewrite Forall_forall in HP1.
  destruct (IH s1 I1) as (s' & E' & I' & HR).
  - unfold HitSpec in HS. destruct (rejected s h) eqn:RJ; [subst s1; constructor; auto; intros; apply HI || apply HA; cbn; auto|]. cbv zeta in HS. destruct (answer _ _ _) as [[st act] evs].
    destruct HS as (E1 & E2 & E3 & E4 & E5 & E6 & E7 & E8 & E9 & Ab & Lg & AA & LV & TH & NT & IX & NX & _).
    constructor; auto.
    + intros k Hk. destruct (HI k (or_intror Hk)) as [K1 K2 K3 K4]. constructor; rewrite ?E2, ?E4; auto. rewrite LV. intros [D|D]; auto.
      unfold hit_arb in D. destruct (find_pair s (h_a h) (h_b h)) as [z|] eqn:F.
      * unfold find_pair in F. apply find_some in F as [F _]. apply K4. rewrite D. left; auto.
      * apply HN1. rewrite <- D. now apply in_map.
    + intros k x Hk Hx P. unfold hit_pair in P. rewrite AA in P. destruct (Nat.eqb_spec x (hit_arb s h)) as [->|Nx].
      * ss. rewrite pair_eqb_sym in P. rewrite (HP1 k Hk) in P. discriminate.
      * apply (HA k x); auto; [cbn; auto|]. rewrite Ab in Hx. destruct act; auto. apply In_snoc in Hx. tauto.
  - exists s'. splits; auto. econstructor; eauto.
Qed.

(** ** What the callbacks see does not change *)
Record Quiet s s' : Prop := {
  q_log : sp_log s' = sp_log s; q_a : forall x, sa_a (sp_a s' x) = sa_a (sp_a s x) /\ sa_b (sp_a s' x) = sa_b (sp_a s x) /\ ba s' x = ba s x /\ bb s' x = bb s x /\ sa_state (sp_a s' x) = sa_state (sp_a s x);
  q_st : forall x, sp_a s' x = sp_a s x \/ (threaded s x /\ sa_stamp (sp_a s' x) = sp_stamp s); q_stamp : sp_stamp s' = sp_stamp s;
  q_live : forall x, live s' x <-> live s x; q_act : forall x, In x (sp_arbs s') \/ threaded s' x <-> In x (sp_arbs s) \/ threaded s x; q_thr : forall x, threaded s x -> threaded s' x }.
Lemma quiet_refl s : Quiet s s.
Proof. constructor; auto; try tauto; intros; splits; reflexivity. Qed.
Lemma quiet_same s s' : SameB s s' -> SameL s s' -> sp_a s' = sp_a s -> sp_log s' = sp_log s -> Quiet s s'.
Proof.
  intros B L A G. assert (TH : forall x, threaded s' x <-> threaded s x) by (intros x; unfold threaded, ba; rewrite A, (v_arbl _ _ B); tauto).
  constructor; auto.
  - intros x. unfold ba, bb. rewrite A. splits; reflexivity.
  - intros x. rewrite A. auto.
  - apply L.
  - intros x. unfold live. rewrite TH, (v_cache _ _ L). tauto.
  - intros x. rewrite TH, (v_arbs _ _ L). tauto.
  - intros x. now rewrite TH.
Qed.
Lemma quiet_wakes s s' : Wakes s s' -> Quiet s s'.
Proof.
  intros W. assert (TH := fun x => wakes_thr s s' x W). destruct (y_arbs _ _ W) as (l1 & E1 & F1), (y_cache _ _ W) as (l2 & E2 & F2).
  constructor; try apply W.
  - intros x. destruct (wakes_ba _ _ x W) as (? & ? & ? & ? & ?). splits; auto.
  - intros x. destruct (y_a _ _ W x) as [->|(X & _ & ->)]; auto.
  - intros x. unfold live. rewrite TH, E2, in_app_iff. split; [|tauto]. intros [[X|X]|X]; auto. right. now apply F2.
  - intros x. rewrite TH, E1, in_app_iff. split; [|tauto]. intros [[X|X]|X]; auto. right. now apply F1.
  - intros x. now rewrite TH.
Qed.
(** an arbiter that is neither active nor in a list is not touched *)
Definition Still s s' := forall x, ~ (In x (sp_arbs s) \/ threaded s x) -> sp_a s' x = sp_a s x.
Lemma quiet_still s s' : Quiet s s' -> Still s s'.
Proof. intros Q x N. destruct (q_st _ _ Q x) as [->|[D _]]; tauto. Qed.
(** stamps may only become current *)
Definition Fresher s s' := forall x, sa_stamp (sp_a s' x) = sa_stamp (sp_a s x) \/ sa_stamp (sp_a s' x) = sp_stamp s.
Record Calm s s' : Prop := {
  m_log : sp_log s' = sp_log s; m_a : forall x, sa_a (sp_a s' x) = sa_a (sp_a s x) /\ sa_b (sp_a s' x) = sa_b (sp_a s x) /\ ba s' x = ba s x /\ bb s' x = bb s x /\ sa_state (sp_a s' x) = sa_state (sp_a s x);
  m_still : Still s s'; m_fr : Fresher s s'; m_stamp : sp_stamp s' = sp_stamp s;
  m_live : forall x, live s' x <-> live s x; m_act : forall x, In x (sp_arbs s') \/ threaded s' x <-> In x (sp_arbs s) \/ threaded s x }.
Lemma calm_quiet s s' : Quiet s s' -> Calm s s'.
Proof. intros Q. constructor; try apply Q; [now apply quiet_still|]. intros x. destruct (q_st _ _ Q x) as [->|[_ ->]]; auto. Qed.
Lemma calm_trans s s1 s2 : Calm s s1 -> Calm s1 s2 -> Calm s s2.
Proof.
  intros [A1 A2 A3 A4 A5 A6 A7] [B1 B2 B3 B4 B5 B6 B7]. constructor; try congruence.
  - intros x. destruct (A2 x) as (? & ? & ? & ? & ?), (B2 x) as (? & ? & ? & ? & ?). splits; congruence.
  - intros x N. rewrite B3; [now apply A3|]. now rewrite A7.
  - intros x. destruct (B4 x) as [->| ->]; [apply A4|right; congruence].
  - intros x. now rewrite B6.
  - intros x. now rewrite B7.
Qed.
Lemma calm_refl s : Calm s s. Proof. apply calm_quiet, quiet_refl. Qed.

(** ** Idle times *)
Lemma idle_loop dt mv l : forall s P, Core s P -> NoDup l -> exists s', each (idle_step dt mv) s l = Some s' /\ Core s' P /\ SameB s s' /\ SameL s s' /\ sp_a s' = sp_a s /\ sp_log s' = sp_log s /\
  forall y, idle s' y = if memb y l && is_dyn s y then (if mv y then t0 else tadd (idle s y) dt) else idle s y.
Proof.
  induction l as [|b l IH]; intros s P I ND; cbn [each].
  - exists s. splits; auto; [constructor; reflexivity|apply sameL_refl].
  - apply NoDup_cons_iff in ND as [N1 N2]. unfold idle_step at 1. set (s1 := if negb (is_dyn s b) then s else _).
    assert (B1 : forall y, sp_b s1 y = if (Nat.eqb y b && is_dyn s y)%bool then b_idle (sp_b s y) (if mv y then t0 else tadd (idle s y) dt) else sp_b s y).
    { intros y. unfold s1. destruct (is_dyn s b) eqn:D; cbn [negb].
      - ss. rewrite upd_spec. destruct (Nat.eqb_spec y b) as [->|]; [now rewrite D|reflexivity].
      - destruct (Nat.eqb_spec y b) as [->|]; [now rewrite D|reflexivity]. }
    assert (SB : SameB s s1). { constructor; intros y; unfold kind, root, next, arbl, conl, shl; rewrite B1; destruct (_ && _); reflexivity. }
    assert (SL : SameL s s1) by (unfold s1; destruct (negb _); [apply sameL_refl|constructor; reflexivity]).
    assert (A1 : sp_a s1 = sp_a s /\ sp_log s1 = sp_log s) by (unfold s1; destruct (negb _); split; reflexivity). destruct A1 as [A1 G1].
    destruct (IH s1 P) as (s' & E & I' & B' & L' & A' & G' & D'); auto.
    { apply (core_ext s); auto; rewrite ?A1; auto; [intros x; unfold ba, bb; rewrite A1; splits; reflexivity|]. intros y Ky. left. unfold idle. rewrite B1. unfold is_dyn. rewrite Ky. cbn. now rewrite andb_false_r. }
    exists s'. splits; auto; try congruence.
    + destruct SB as [S1 S2 S3 S4 S5 S6 S7], B' as [T1 T2 T3 T4 T5 T6 T7]. constructor; intros y; [rewrite T1|rewrite T2|rewrite T3|rewrite T4|rewrite T5|rewrite T6|rewrite T7]; auto.
    + eapply sameL_trans; eauto.
    + intros y. rewrite D'. unfold is_dyn in *. rewrite (v_kind _ _ SB). cbn [memb existsb]. fold (memb y l). destruct (Nat.eqb_spec y b) as [->|Ny]; cbn [orb].
      * destruct (memb_spec b l); [tauto|]. unfold idle. rewrite B1, Nat.eqb_refl. cbn [andb]. destruct (kind_eqb (kind s b) Dyn); reflexivity.
      * assert (Q : idle s1 y = idle s y). { unfold idle. rewrite B1, (proj2 (Nat.eqb_neq y b) Ny). reflexivity. } rewrite Q. reflexivity.
Qed.

(** ** Threading the active arbiters *)
Lemma thread_ok s x P : Core s (x :: P) -> ~ In x P -> root s (ba s x) = None -> root s (bb s x) = None ->
  exists s', match push_arb s (ba s x) x with Some t => push_arb t (bb s x) x | None => None end = Some s' /\ Core s' P /\ Quiet s s' /\
   (forall y, kind s' y = kind s y /\ root s' y = root s y /\ idle s' y = idle s y) /\ (forall y, threaded s' y <-> threaded s y \/ y = x) /\ sp_sleep s' = sp_sleep s /\ sp_dyn s' = sp_dyn s /\ sp_arbs s' = sp_arbs s /\ sp_cons s' = sp_cons s /\ sp_c s' = sp_c s /\ sp_a s' = sp_a s /\ sp_s s' = sp_s s.
Proof.
  intros I NP Ra Rb. destruct (proj1 (i_pend _ _ I x) (or_introl eq_refl)) as [XA NT]. assert (XC : In x (sp_cache s)) by now apply (i_arbs _ _ I).
  destruct (i_live _ _ I x (or_introl XC)) as (_ & _ & _ & _ & NE).
  assert (NA : ~ In x (arbl s (ba s x))) by exact NT. assert (NB : ~ In x (arbl s (bb s x))). { intros D. apply (i_thr _ _ I) in D. tauto. }
  unfold push_arb at 1. change (sb_arbs (bod s (ba s x))) with (arbl s (ba s x)). rewrite (proj2 (memb_false _ _) NA). set (s1 := upd_b s (ba s x) _). cbv iota.
  unfold push_arb. assert (AB1 : sb_arbs (bod s1 (bb s x)) = arbl s (bb s x)) by (unfold s1; ss; rewrite upd_other by congruence; reflexivity). rewrite AB1, (proj2 (memb_false _ _) NB).
  eexists. split; [reflexivity|]. set (s' := upd_b s1 (bb s x) _).
  assert (B' : forall y, sp_b s' y = if (Nat.eqb y (ba s x) || Nat.eqb y (bb s x))%bool then b_arbs (sp_b s y) (x :: arbl s y) else sp_b s y).
  { intros y. unfold s', s1. ss. rewrite !upd_spec. destruct (Nat.eqb_spec y (bb s x)) as [->|].
    - rewrite (proj2 (Nat.eqb_neq (bb s x) (ba s x))) by congruence. reflexivity.
    - destruct (Nat.eqb_spec y (ba s x)) as [->|]; reflexivity. }
  assert (K : forall y, kind s' y = kind s y) by (intros y; unfold kind; rewrite B'; destruct (_ || _); reflexivity).
  assert (R : forall y, root s' y = root s y) by (intros y; unfold root; rewrite B'; destruct (_ || _); reflexivity).
  assert (N : forall y, next s' y = next s y) by (intros y; unfold next; rewrite B'; destruct (_ || _); reflexivity).
  assert (C : forall y, conl s' y = conl s y) by (intros y; unfold conl; rewrite B'; destruct (_ || _); reflexivity).
  assert (SH : forall y, shl s' y = shl s y) by (intros y; unfold shl; rewrite B'; destruct (_ || _); reflexivity).
  assert (IN : forall y, inb s' y <-> inb s y) by (intros y; unfold inb; rewrite B'; destruct (_ || _); reflexivity).
  assert (ID : forall y, idle s' y = idle s y) by (intros y; unfold idle; rewrite B'; destruct (_ || _); reflexivity).
  assert (A : forall y z, In z (arbl s' y) <-> In z (arbl s y) \/ (z = x /\ (y = ba s x \/ y = bb s x))).
  { intros y z. unfold arbl. rewrite B'. destruct (Nat.eqb_spec y (ba s x)) as [E1|E1], (Nat.eqb_spec y (bb s x)) as [E2|E2]; cbn [orb]; ss; cbn [In]; unfold arbl; intuition. }
  assert (BA : forall y, ba s' y = ba s y) by reflexivity. assert (BB : forall y, bb s' y = bb s y) by reflexivity.
  assert (TH : forall y, threaded s' y <-> threaded s y \/ y = x). { intros y. unfold threaded. rewrite BA, A. split; [tauto|]. intros [D| ->]; auto. }
  assert (LV : forall y, live s' y <-> live s y). { intros y. unfold live. rewrite TH. change (sp_cache s') with (sp_cache s). split; [|tauto]. intros [D|[D| ->]]; auto. }
  assert (PR : forall y, present s' y <-> present s y) by (intros y; unfold present; rewrite IN; reflexivity).
  splits; auto.
  2:{ constructor; try reflexivity; auto; try (intros; splits; reflexivity); intros y; rewrite TH; auto. change (sp_arbs s') with (sp_arbs s). split; [|tauto]. intros [D|[D| ->]]; auto. }
  change (Core s' P). constructor; ss; try solve [apply I].
  - intros y. rewrite IN, K, R. apply I.
  - intros y. rewrite IN, K. apply I.
  - intros y. rewrite IN. apply I.
  - rewrite IN, K. apply I.
  - intros y r. rewrite R, IN, K. intros Ey. destruct (i_root _ _ I y r Ey) as (X1 & X2 & X3 & l & X4 & X5). splits; auto. exists l. split; auto. eapply chain_ext; eauto.
  - intros r Hr. destruct (i_comp _ _ I r Hr) as (l & X1 & X2 & X3). exists l. splits; auto; [eapply chain_ext; eauto|]. intros y. rewrite R. auto.
  - intros y. rewrite R, N. apply I.
  - intros y. rewrite K. unfold idle in ID. intros D. unfold s', s1 in *. ss. rewrite ID. now apply I.
  - intros z y. rewrite SH. apply I.
  - intros y. rewrite SH. apply I.
  - intros z. rewrite K, R. apply I.
  - intros z. rewrite K, R. apply I.
  - intros z. rewrite PR. apply I.
  - intros c y. rewrite C. apply I.
  - intros y. rewrite C. apply I.
  - intros c. rewrite !PR. apply I.
  - intros c. rewrite !R. apply I.
  - intros c r. rewrite !R, !K. apply I.
  - intros z y. rewrite !A, !BA, !BB. intros [D|[-> D]].
    + destruct (i_thr _ _ I _ _ D) as (? & ? & ?). splits; auto.
    + splits; auto.
  - intros y. unfold arbl. rewrite B'. destruct (Nat.eqb y (ba s x) || Nat.eqb y (bb s x))%bool eqn:Q; ss; [|apply I]. constructor; [|apply I]. apply orb_true_iff in Q. rewrite !Nat.eqb_eq in Q. destruct Q as [Q|Q]; rewrite Q; auto.
  - intros y. rewrite TH. split.
    + intros D. destruct (proj1 (i_pend _ _ I y) (or_intror D)). split; auto. intros [E|E]; [auto|congruence].
    + intros [D E]. assert (Q : In y (x :: P)) by (apply (i_pend _ _ I y); auto). destruct Q as [Q|Q]; auto. exfalso. apply E. auto.
  - intros y Hy. rewrite TH, BA, BB, !R. intros [D| ->]; auto. now apply I.
  - intros y. rewrite TH, BA, BB, !R. intros [D| ->]; auto. now apply I.
  - intros y r. rewrite TH, BA, BB, !R, !K. intros [D| ->]; [now apply I|]. rewrite Ra, Rb. split; discriminate.
  - intros y. rewrite LV, BA, BB. apply I.
  - intros y z. rewrite !LV. apply I.
  - intros y. rewrite LV. apply I.
Qed.
(** a dynamic body that touches a kinematic one counts as moving *)
Definition KinT s := forall x, threaded s x -> (kind s (ba s x) = Kin -> kind s (bb s x) = Dyn -> idle s (bb s x) = t0) /\ (kind s (bb s x) = Kin -> kind s (ba s x) = Dyn -> idle s (ba s x) = t0).
Lemma kint_wakes s s' : Wakes s s' -> KinT s -> KinT s'.
Proof.
  intros W Q x Tx. rewrite (wakes_thr _ _ _ W) in Tx. destruct (wakes_ba _ _ x W) as (-> & -> & _). rewrite !(y_kind _ _ W). destruct (Q x Tx) as [Q1 Q2].
  split; intros A B; [destruct (y_idle _ _ W (bb s x)) as [->| ->]|destruct (y_idle _ _ W (ba s x)) as [->| ->]]; auto.
Qed.
Record Busier s s' : Prop := { z_kind : forall y, kind s' y = kind s y; z_idle : forall y, idle s' y = idle s y \/ idle s' y = t0; z_root : forall y, root s' y = root s y \/ (root s' y = None /\ idle s' y = t0); z_c : sp_c s' = sp_c s; z_s : sp_s s' = sp_s s; z_in : forall y, sb_in (sp_b s' y) = sb_in (sp_b s y) }.
Lemma busier_refl s : Busier s s. Proof. constructor; auto. Qed.
Lemma busier_trans s s1 s2 : Busier s s1 -> Busier s1 s2 -> Busier s s2.
Proof.
  intros [A1 A2 A3 A4 A5 A6] [B1 B2 B3 B4 B5 B6]. constructor; try congruence.
  - intros y. destruct (B2 y) as [->| ->]; auto.
  - intros y. destruct (B3 y) as [->|]; auto. destruct (A3 y) as [|[E1 E2]]; auto. right. split; auto. destruct (B2 y) as [->| ->]; auto.
Qed.
Lemma activate_busier s P b s' : Core s P -> activate s b = Some s' -> Busier s s' /\ Core s' P /\ Wakes s s' /\ (kind s b = Dyn -> idle s' b = t0) /\ root s' b = None.
Proof.
  intros I E. destruct (activate_ok s P b I) as (s2 & E2 & I2 & W2 & R2 & D2 & N2). rewrite E in E2. injection E2 as <-. splits; auto; [|tauto|exact (activate_root s P b s' I E)].
  constructor; try apply W2. intros y. rewrite R2. destruct (root s b) as [r|] eqn:Rb; auto. destruct (root s y) as [q|] eqn:Ry; cbn [eqo]; auto. destruct (Nat.eqb_spec q r) as [->|]; auto. right. split; auto.
  destruct (i_root _ _ I b r Rb) as (_ & Kb & _). destruct (D2 Kb) as (_ & D3 & _). eauto.
Qed.
Lemma wake_if s P (c : bool) b : Core s P -> exists s', (if c then activate s b else Some s) = Some s' /\ Core s' P /\ Wakes s s' /\ Busier s s' /\ (c = true -> root s' b = None /\ (kind s b = Dyn -> idle s' b = t0)).
Proof.
  intros I. destruct c; [|exists s; splits; auto; [apply wakes_refl|apply busier_refl|discriminate]].
  destruct (activate_ok s P b I) as (s' & E & _). destruct (activate_busier s P b s' I E) as (? & ? & ? & ? & ?). exists s'. splits; auto.
Qed.
Lemma push_ok sl s x P : Core s (x :: P) -> ~ In x P -> (sl = false -> sp_sleep s = []) -> (sl = true -> KinT s) ->
  exists s', push_step sl s x = Some s' /\ Core s' P /\ Calm s s' /\ Busier s s' /\ (sl = false -> sp_sleep s' = []) /\ (sl = true -> KinT s').
Proof.
  intros I NP SL KT. unfold push_step. set (a := sa_ba (sp_a s x)). set (b := sa_bb (sp_a s x)).
  assert (SR : forall (t : Sp) y, sleeping t y = match root t y with Some _ => true | None => false end) by reflexivity.
  destruct (wake_if s (x :: P) (sl && (is_kin s b || sleeping s a)) a I) as (s1 & E1 & I1 & W1 & Z1 & F1). rewrite E1.
  destruct (wake_if s1 (x :: P) (sl && (is_kin s1 a || sleeping s1 b)) b I1) as (s2 & E2 & I2 & W2 & Z2 & F2). rewrite E2.
  assert (W : Wakes s s2) by (eapply wakes_trans; eauto). assert (Z : Busier s s2) by (eapply busier_trans; eauto).
  destruct (wakes_ba _ _ x W) as (BA & BB & _). change (ba s x) with a in BA. change (bb s x) with b in BB.
  assert (SL2 : sl = false -> sp_sleep s2 = []). { intros D. specialize (SL D). destruct (sp_sleep s2) as [|q m] eqn:Q; auto. exfalso. assert (D' : In q (sp_sleep s)) by (apply (y_sleep _ _ W); rewrite Q; cbn; auto). rewrite SL in D'. destruct D'. }
  assert (NR : sl = false -> forall y, root s2 y = None). { intros D y. destruct (root s2 y) eqn:R; auto. apply (i_root _ _ I2) in R as (_ & _ & R & _). rewrite (SL2 D) in R. destruct R. }
  assert (Ra : root s2 (ba s2 x) = None).
  { rewrite BA. destruct sl; [|auto]. cbn [andb] in *. destruct (z_root _ _ Z2 a) as [->|[-> _]]; auto. rewrite SR in F1. destruct (is_kin s b); cbn [orb] in F1; [apply F1; auto|].
    destruct (root s a) eqn:R; [apply F1; auto|]. destruct (z_root _ _ Z1 a) as [->|[-> _]]; auto. }
  assert (Rb : root s2 (bb s2 x) = None).
  { rewrite BB. destruct sl; [|auto]. cbn [andb] in *. rewrite SR in F2. destruct (is_kin s1 a); cbn [orb] in F2; [apply F2; auto|].
    destruct (root s1 b) eqn:R; [apply F2; auto|]. destruct (z_root _ _ Z2 b) as [->|[-> _]]; auto. }
  destruct (thread_ok s2 x P I2 NP Ra Rb) as (s3 & E3 & I3 & Q3 & V3 & TH3 & SL3 & _ & _ & _ & C3 & A3 & S3). rewrite BA, BB in E3. rewrite E3. exists s3. splits; auto.
  - apply (calm_trans s s2); apply calm_quiet; [now apply quiet_wakes|auto].
  - eapply busier_trans; [exact Z|]. constructor; auto; try solve [intros y; destruct (V3 y) as (? & ? & ?); auto].
    intros y. unfold push_arb in E3. destruct (memb x (sb_arbs (bod s2 a))); [discriminate|]. destruct (memb x _); [discriminate|]. injection E3 as <-. ss. rewrite !upd_spec. destruct (Nat.eqb_spec y b) as [->|]; [destruct (Nat.eqb_spec b a) as [->|]|destruct (Nat.eqb_spec y a) as [->|]]; reflexivity.
  - intros D. rewrite SL3. auto.
  - intros D. assert (KT2 : KinT s2) by (eapply kint_wakes; eauto). intros y. rewrite TH3. unfold ba, bb. rewrite A3. fold (ba s2 y) (bb s2 y). destruct (V3 (ba s2 y)) as (-> & _ & ->), (V3 (bb s2 y)) as (-> & _ & ->). intros [Ty| ->]; [now apply KT2|].
    rewrite BA, BB, !(z_kind _ _ Z). subst sl. cbn [andb] in *. split.
    + intros Ka Kb. destruct F2 as [_ F2]; [unfold is_kin; rewrite (z_kind _ _ Z1), Ka; reflexivity|]. apply F2. now rewrite (z_kind _ _ Z1).
    + intros Kb Ka. destruct F1 as [_ F1]; [unfold is_kin; rewrite Kb; reflexivity|]. specialize (F1 Ka). destruct (z_idle _ _ Z2 a) as [->| ->]; auto.
Qed.
Lemma push_loop sl : forall P s, Core s P -> NoDup P -> (sl = false -> sp_sleep s = []) -> (sl = true -> KinT s) ->
  exists s', each (push_step sl) s P = Some s' /\ Core s' [] /\ Calm s s' /\ Busier s s' /\ (sl = false -> sp_sleep s' = []) /\ (sl = true -> KinT s').
Proof.
  induction P as [|x P IH]; intros s I ND SL KT; cbn [each]; [exists s; splits; auto; [apply calm_refl|apply busier_refl]|].
  apply NoDup_cons_iff in ND as [N1 N2]. destruct (push_ok sl s x P I N1 SL KT) as (s1 & E1 & I1 & C1 & Z1 & S1 & K1). rewrite E1.
  destruct (IH s1 I1 N2 S1 K1) as (s2 & E2 & I2 & C2 & Z2 & S2 & K2). exists s2. splits; auto; [eapply calm_trans; eauto|eapply busier_trans; eauto].
Qed.
Lemma con_loop l : forall s, Core s [] -> exists s', each con_step s l = Some s' /\ Core s' [] /\ Wakes s s' /\ Busier s s' /\
  forall c, In c l -> (kind s (sc_a (sp_c s c)) = Kin -> kind s (sc_b (sp_c s c)) = Dyn -> idle s' (sc_b (sp_c s c)) = t0) /\ (kind s (sc_b (sp_c s c)) = Kin -> kind s (sc_a (sp_c s c)) = Dyn -> idle s' (sc_a (sp_c s c)) = t0).
Proof.
  induction l as [|c l IH]; intros s I; cbn [each]; [exists s; splits; auto; [apply wakes_refl|apply busier_refl|intros c []]|].
  unfold con_step at 1. destruct (wake_if s [] (is_kin s (sc_b (sp_c s c))) (sc_a (sp_c s c)) I) as (s1 & E1 & I1 & W1 & Z1 & F1). rewrite E1. rewrite (z_c _ _ Z1).
  destruct (wake_if s1 [] (is_kin s1 (sc_a (sp_c s c))) (sc_b (sp_c s c)) I1) as (s2 & E2 & I2 & W2 & Z2 & F2). rewrite E2.
  destruct (IH s2 I2) as (s3 & E3 & I3 & W3 & Z3 & F3). assert (Z : Busier s s2) by (eapply busier_trans; eauto). exists s3. splits; auto.
  - eapply wakes_trans; [|exact W3]. eapply wakes_trans; eauto.
  - eapply busier_trans; eauto.
  - intros d [<-|Hd].
    + split; intros K1 K2.
      * destruct F2 as [_ F2]; [unfold is_kin; rewrite (z_kind _ _ Z1), K1; reflexivity|]. destruct (z_idle _ _ Z3 (sc_b (sp_c s c))) as [->| ->]; auto. apply F2. now rewrite (z_kind _ _ Z1).
      * destruct F1 as [_ F1]; [unfold is_kin; rewrite K1; reflexivity|]. destruct (z_idle _ _ Z3 (sc_a (sp_c s c))) as [->| ->]; auto. destruct (z_idle _ _ Z2 (sc_a (sp_c s c))) as [->| ->]; auto.
    + specialize (F3 d Hd). rewrite (z_c _ _ Z) in F3. rewrite !(z_kind _ _ Z) in F3. auto.
Qed.
End Step2.
