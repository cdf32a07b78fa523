(** Whole steps and whole histories. *)
From Coq Require Import List Arith NArith Bool Lia Permutation Relations.
From Verif Require Import SpecSpace.
From Verif.Model Require Import HashSet Space.
From Verif.Proofs Require Import Util SpaceLib SpaceInv SpaceAct SpaceOps SpaceOps2 SpaceStep SpaceSleep SpaceComp SpaceComp2 SpaceStep2 SpaceStep3 SpaceProto.
Import ListNotations.

Section Hist.
Context {T : Type} `{Time T}.
Notation Sp := (Space T).
Implicit Types (s : Sp) (b x c r : nat).

Lemma conn_ext2 s s' b y : (forall z, kind s' z = kind s z /\ arbl s' z = arbl s z /\ conl s' z = conl s z) -> (forall x, ba s' x = ba s x /\ bb s' x = bb s x) -> sp_c s' = sp_c s -> conn s b y -> conn s' b y.
Proof.
  intros V A C. induction 1 as [p q [A1 [A2 A3]]| | |]; [|apply rst_refl|now apply rst_sym|eapply rst_trans; eauto].
  assert (O : forall x, arb_other s' p x = arb_other s p x). { intros x. unfold arb_other. destruct (A x) as [E1 E2]. unfold ba, bb in E1, E2. now rewrite E1, E2. }
  apply rst_step. destruct (V p) as (-> & V2 & V3), (V q) as (-> & _). splits; auto. unfold adj, con_other in *. rewrite V2, V3, C. destruct A1 as [(x & X1 & X2)|A1]; auto. left. exists x. rewrite O. auto.
Qed.

(** ** A step *)
Notation StepOk := can_step.
Definition mover s b := kind s b <> Stat /\ root s b = None.
Definition at_rest s b := kind s b = Stat \/ root s b <> None.
Record Stepped (dt : T) (mv : nat -> bool) (thr : option T) (hits : list Hit) s s' : Prop := {
  t_kind : forall y, kind s' y = kind s y; t_in : forall y, sb_in (sp_b s' y) = sb_in (sp_b s y); t_s : sp_s s' = sp_s s; t_c : sp_c s' = sp_c s;
  t_slept : forall y q, root s' y = Some q -> root s y = Some q \/ exists th, thr = Some th /\ root s y = None /\ kind s y = Dyn /\ inb s y /\ mv y = false /\ tltb (tadd (idle s y) dt) th = false;
  t_awake : forall th b, thr = Some th -> In b (sp_dyn s') -> exists y, conn s' b y /\ tltb (idle s' y) th = true;
  t_idle : forall y, idle s' y = t0 \/ idle s' y = match thr with Some _ => if memb y (sp_dyn s) && is_dyn s y then if mv y then t0 else tadd (idle s y) dt else idle s y | None => idle s y end;
  t_none : thr = None -> sp_sleep s' = [];
  t_proto : Proto s -> Proto s';
  t_touch : Proto s -> forall h, In h hits -> rejected s h = false -> contact (sp_log s') (h_a h) (h_b h) <> Some Apart /\ contact (sp_log s') (h_a h) (h_b h) <> Some (Touching Fresh);
  t_apart : Proto s -> forall a b, (forall h, In h hits -> rejected s h = false -> pair_eqb a b (h_a h) (h_b h) = false) ->
    mover s (ss_body (sp_s s a)) \/ mover s (ss_body (sp_s s b)) -> ~ (at_rest s' (ss_body (sp_s s a)) /\ at_rest s' (ss_body (sp_s s b))) -> contact (sp_log s') a b = Some Apart }.
Lemma nf_snoc l e a b : match e with ESep _ _ | EPost _ _ => True | _ => False end -> no_fresh (contact l a b) -> no_fresh (contact (l ++ [e]) a b).
Proof.
  unfold no_fresh. intros Q N. rewrite contact_snoc. destruct (contact l a b) as [c|]; [|discriminate]. destruct e; try contradiction; cbn; destruct (same_pair a b a0 b0); auto; destruct c as [|[]|]; try discriminate; congruence.
Qed.
Lemma nf_posts s l log a b : no_fresh (contact log a b) -> no_fresh (contact (log ++ posts s l) a b).
Proof.
  revert log. induction l as [|x l IH]; intros log N; cbn [posts map]; [now rewrite app_nil_r|]. change (log ++ ?e :: ?m) with (log ++ [e] ++ m). rewrite app_assoc. apply IH. now apply nf_snoc.
Qed.
Lemma nf_age s l s' a b : AgeRel s l s' -> no_fresh (contact (sp_log s) a b) -> no_fresh (contact (sp_log s') a b).
Proof.
  induction 1 as [s|s x s1 l s' I X I1 G HR IH]; intros N; auto. apply IH. destruct (g_log _ _ _ G) as [[-> _]|(-> & _)]; auto. now apply nf_snoc.
Qed.
Lemma step_ok s dt mv thr hits : Core s [] -> StepOk s thr hits -> exists s', step s dt mv thr hits = Some s' /\ Core s' [] /\ Stepped dt mv thr hits s s'.
Proof.
  intros I [SO1 SO2 SO3 SO4 SO5]. unfold step. destruct (start_ok s I) as (s1 & E1 & I1 & G1 & N1 & A1 & L1 & Ca1 & S1 & C1 & D1 & Dy1 & Po1 & Na1 & V1 & Sb1 & Sl1 & Al1 & Co1 & Cs1).
  cbv zeta. cbv zeta in E1. rewrite E1. set (t := set_arbs s1 []) in *.
  assert (HO : HitsOk t hits).
  { constructor; auto. intros h Hh. destruct (SO1 h Hh) as (X1 & X2 & X3 & X4). constructor; unfold t; ss; rewrite ?S1, ?D1; auto. fold t. rewrite L1. now apply (i_pool _ _ I). }
  destruct (hits_ok hits t I1 HO) as (s2 & E2 & I2 & R2). rewrite E2.
  destruct (hits_frame _ _ _ R2) as (FB & FS & FC & FD & FN & FSB & FDY & FSL & FCO).
  assert (V2 : forall y, kind s2 y = kind s y /\ root s2 y = root s y /\ sb_in (sp_b s2 y) = sb_in (sp_b s y) /\ idle s2 y = idle s y). { intros y. unfold kind, root, idle. rewrite FB. apply V1. }
  destruct (process_ok s2 dt mv thr I2) as (s3 & E3 & I3 & P3); [rewrite FSL; unfold t; ss; now rewrite Sl1|auto|]. rewrite E3.
  destruct (age_loop (sp_cache s3) s3 I3 (i_cache_nd _ _ I3) (incl_refl _)) as (s4 & E4 & I4 & R4). rewrite E4. rewrite post_loop.
  destruct (age_frame _ _ _ R4) as (B4 & Dy4 & Sl4 & S4 & C4 & Ab4 & N4 & _ & A4).
  eexists. split; [reflexivity|]. set (s' := set_log _ _).
  assert (B' : sp_b s' = sp_b s3) by exact B4.
  assert (I' : Core s' []).
  { apply (core_ext s4); auto; try (intros x; splits; reflexivity); try (constructor; reflexivity). }
  split; auto.
  assert (KD : forall y, kind s' y = kind s y). { intros y. unfold kind. rewrite B'. fold (kind s3 y). rewrite (e_kind _ _ _ _ _ P3). apply V2. }
  assert (SS : sp_s s' = sp_s s). { transitivity (sp_s s3); [exact S4|]. rewrite (e_s _ _ _ _ _ P3), FS. exact S1. }
  assert (PP : Proto s -> Proto t /\ Ready t /\ (forall a b p, contact (sp_log t) a b = Some (Touching p) -> p = Fresh) /\ (forall x, live t x -> (sa_stamp (sp_a t x) < sp_stamp t)%N)).
  { intros PR. exact (start_proto s s1 I PR I1 G1 N1 A1 L1 Ca1 Al1). }
  assert (PQ : Proto s -> Proto s2 /\ Ready s2 /\ Hitted t hits s2 /\ forall h, In h hits -> rejected t h = false -> no_fresh (contact (sp_log s2) (h_a h) (h_b h))).
  { intros PR. destruct (PP PR) as (Q1 & Q2 & Q3 & _). apply (hits_proto t hits s2); auto. intros h _ p. apply Q3. }
  assert (PZ : Proto s -> Proto s3 /\ Ready s3). { intros PR. destruct (PQ PR) as (Q1 & Q2 & _). split; [apply (calm_proto s2 s3 (sp_arbs s2)); auto; apply P3|apply (calm_ready s2); auto; apply P3]. }
  assert (P4 := fun PR => let Q := PZ PR in age_protos _ _ _ R4 (i_cache_nd _ _ I3) (proj1 Q) (proj2 Q)). cbv beta zeta in P4.
  assert (PR' : Proto s -> Proto s'). { intros PR. destruct (P4 PR) as (Q1 & Q2 & _). exact (post_proto s4 I4 Q1 Q2). }
  assert (RJ : forall h, rejected t h = rejected s h) by (intros h; apply rejected_ext; auto).
  assert (CM := e_calm _ _ _ _ _ P3).
  assert (TH4 : forall x, threaded s4 x <-> threaded s3 x). { intros x. unfold threaded, arbl. rewrite B4. destruct (A4 x) as (_ & _ & -> & _). tauto. }
  constructor; auto.
  - intros y. rewrite B', (e_in _ _ _ _ _ P3). apply V2.
  - transitivity (sp_c s3); [exact C4|]. rewrite (e_c _ _ _ _ _ P3), FC. exact C1.
  - intros y q. unfold root. rewrite B'. fold (root s3 y) (root s y). intros R. destruct (V2 y) as (K2 & Rt2 & In2 & Id2). destruct (e_slept _ _ _ _ _ P3 y q R) as [Q|(th & Q1 & Q2 & Q3 & Q4 & Q5 & Q6)]; [left; congruence|].
    right. exists th. unfold inb in *. splits; congruence.
  - intros th b Et Hb. change (sp_dyn s') with (sp_dyn s4) in Hb. rewrite Dy4 in Hb. destruct (e_awake _ _ _ _ _ P3 th b Et Hb) as (y & Q1 & Q2). exists y. split; [|unfold idle; rewrite B'; exact Q2].
    eapply (conn_ext2 s3); eauto; [intros z; unfold kind, arbl, conl; rewrite B'; auto|]. intros x. destruct (A4 x) as (_ & _ & Q3 & Q4 & _). split; [exact Q3|exact Q4].
  - intros y. unfold idle. rewrite B'. fold (idle s3 y) (idle s y). destruct (V2 y) as (K2 & _ & _ & Id2). destruct (e_idle _ _ _ _ _ P3 y) as [Q|Q]; auto. right. rewrite Q. unfold is_dyn. rewrite Id2, K2, FDY. unfold t. ss. rewrite Dy1. reflexivity.
  - intros E. change (sp_sleep s') with (sp_sleep s4). rewrite Sl4. now apply (e_none _ _ _ _ _ P3).
  - intros PR h Hh Rh. destruct (PQ PR) as (_ & _ & J & SN). rewrite <- RJ in Rh. destruct (j_hit _ _ _ J h Hh Rh) as (x & X1 & X2 & X3 & X4).
    destruct (m_a _ _ CM x) as (Y1 & Y2 & _ & _ & Y5). assert (L3 : live s3 x) by (apply (m_live _ _ CM); left; auto).
    assert (TK : ticks s3 x = 0%N). { unfold ticks. rewrite (m_stamp _ _ CM). assert (Q : sa_stamp (sp_a s3 x) = sp_stamp s2) by (destruct (m_fr _ _ CM x) as [->| ->]; congruence). rewrite Q. lia. }
    destruct (P4 PR) as (_ & _ & K1 & K2 & _). assert (Q : sp_a s4 x = sp_a s3 x /\ live s4 x).
    { destruct (in_dec Nat.eq_dec x (sp_cache s3)) as [D|D]; [destruct (K2 x D TK) as [Q1 Q2]; split; auto; left; auto|]. destruct (K1 x D) as [Q1 _]. split; auto. right. apply TH4. destruct L3; tauto. }
    destruct Q as [Q1 Q2]. assert (AG := p_live _ (PR' PR) x Q2). unfold ctc in AG. change (sp_a s') with (sp_a s4) in AG. rewrite Q1, Y1, Y2, Y5 in AG. split; [rewrite (contact_pair _ _ _ _ _ X2); intros E; rewrite E in AG; destruct (sa_state (sp_a s2 x)); cbn in AG; try congruence; try tauto; destruct AG; congruence|].
    specialize (SN h Hh Rh). rewrite <- (m_log _ _ CM) in SN. apply (nf_posts s4). exact (nf_age _ _ _ _ _ R4 SN).
  - intros PR a b NH MV NR. specialize (PR' PR). destruct (PQ PR) as (_ & _ & J & SN). destruct (PP PR) as (_ & _ & _ & SL). destruct (P4 PR) as (_ & _ & _ & _ & K3 & K4).
    assert (ME : forall x, live s' x -> pair_eqb a b (sa_a (sp_a s' x)) (sa_b (sp_a s' x)) = true -> sa_state (sp_a s' x) = ACached).
    { intros x Lx EP. assert (L3 := K4 x Lx). assert (L2 : live s2 x) by now apply (m_live _ _ CM).
      assert (PX : sa_a (sp_a s2 x) = sa_a (sp_a s' x) /\ sa_b (sp_a s2 x) = sa_b (sp_a s' x)). { destruct (m_a _ _ CM x) as (Y1 & Y2 & _). destruct (A4 x) as (Z1 & Z2 & _). change (sp_a s') with (sp_a s4). split; congruence. }
      assert (Q : live t x /\ sp_a s2 x = sp_a t x /\ (In x (sp_arbs s2) -> In x (sp_arbs t))).
      { apply (j_not _ _ _ J); auto. intros h Hh Rh HP. rewrite RJ in Rh. specialize (NH h Hh Rh). unfold hit_pair in HP. destruct PX as [P1 P2]. rewrite P1, P2 in HP. rewrite pair_eqb_sym in HP. rewrite (pair_eqb_trans _ _ _ _ _ _ EP HP) in NH. discriminate. }
      destruct Q as (Lt & At & Ct). assert (NA : ~ In x (sp_arbs s2)) by (intros D; destruct (Ct D)).
      assert (LS : live s x) by now apply L1. destruct (i_live _ _ I x LS) as (_ & _ & Y3 & Y4 & Y5).
      assert (SH : sa_a (sp_a s x) = sa_a (sp_a s' x) /\ sa_b (sp_a s x) = sa_b (sp_a s' x) /\ sa_ba (sp_a t x) = sa_ba (sp_a s x)).
      { assert (Z : sa_a (sp_a t x) = sa_a (sp_a s x) /\ sa_b (sp_a t x) = sa_b (sp_a s x) /\ sa_ba (sp_a t x) = sa_ba (sp_a s x)) by (unfold t; ss; rewrite A1; unfold reset_state; destruct (memb x (sp_arbs s)); splits; reflexivity). destruct Z as (Z1 & Z2 & Z3). destruct PX as [P1 P2]. rewrite At in P1, P2. splits; congruence. }
      destruct SH as (SH1 & SH2 & SH3).
      assert (BD : (ss_body (sp_s s a) = ba s x /\ ss_body (sp_s s b) = bb s x) \/ (ss_body (sp_s s a) = bb s x /\ ss_body (sp_s s b) = ba s x)).
      { rewrite Y3, Y4, SH1, SH2. apply pair_eqb_iff in EP as [[-> ->]|[-> ->]]; auto. }
      assert (NT : ~ threaded s2 x).
      { unfold threaded, arbl, ba. rewrite FB, At, SH3. fold (ba s x). change (sb_arbs (sp_b t (ba s x))) with (arbl s1 (ba s x)). rewrite Al1. intros D. apply dels_In in D as [D NX]; [|apply I].
        destruct (i_thr_st _ _ I x D) as [?|[_ D2]]; [tauto|]. unfold mover in MV.
        destruct (root s (ba s x)) as [r1|] eqn:R1, (root s (bb s x)) as [r2|] eqn:R2'; [| | |destruct D2; congruence].
        - destruct BD as [[Q1 Q2]|[Q1 Q2]]; rewrite Q1, Q2 in MV; destruct MV as [[_ M]|[_ M]]; congruence.
        - destruct (i_thr_cl _ _ I x r1 D) as [CL _]. destruct (CL R1) as [K|K]; [|congruence]. destruct BD as [[Q1 Q2]|[Q1 Q2]]; rewrite Q1, Q2 in MV; destruct MV as [[M1 M]|[M1 M]]; congruence.
        - destruct (i_thr_cl _ _ I x r2 D) as [_ CL]. destruct (CL R2') as [K|K]; [|congruence]. destruct BD as [[Q1 Q2]|[Q1 Q2]]; rewrite Q1, Q2 in MV; destruct MV as [[M1 M]|[M1 M]]; congruence. }
      assert (NAC : ~ (In x (sp_arbs s2) \/ threaded s2 x)) by tauto. assert (A3 : sp_a s3 x = sp_a t x) by (rewrite (m_still _ _ CM x NAC); auto).
      assert (C3 : In x (sp_cache s3)). { destruct L3 as [?|D]; auto. exfalso. apply NAC. apply (m_act _ _ CM). auto. }
      apply K3; auto.
      - unfold ticks. rewrite A3, (m_stamp _ _ CM), FN. specialize (SL x Lt). lia.
      - assert (RT : forall y, (is_stat s3 y || sleeping s3 y)%bool = true -> at_rest s' y).
        { intros y. unfold at_rest, is_stat, sleeping, root, bod, kind. rewrite B'. rewrite orb_true_iff, kind_eqb_eq. intros [D|D]; auto. right. destruct (sb_root (sp_b s3 y)); congruence. }
        unfold resting. destruct (_ && _) eqn:E; auto. apply andb_true_iff in E as [E5 E6]. apply RT in E5, E6. exfalso. apply NR.
        destruct (m_a _ _ CM x) as (_ & _ & W1 & W2 & _). rewrite W1 in E5. rewrite W2 in E6.
        assert (Z1 : ba s2 x = ba s x /\ bb s2 x = bb s x). { unfold ba, bb. rewrite At. unfold t; ss; rewrite A1; unfold reset_state; destruct (memb x (sp_arbs s)); splits; reflexivity. }
        destruct Z1 as [Z1 Z2]. rewrite Z1 in E5. rewrite Z2 in E6. destruct BD as [[-> ->]|[-> ->]]; auto. }
    set (A := ss_body (sp_s s a)) in *.
    destruct (existsb (fun x => pair_eqb a b (sa_a (sp_a s' x)) (sa_b (sp_a s' x))) (sp_cache s' ++ arbl s' A)) eqn:EX.
    + apply existsb_exists in EX as (x & Hx & EP). assert (Lx : live s' x). { apply in_app_iff in Hx as [D|D]; [left; auto|right]. unfold threaded. now apply (i_thr _ _ I') in D. }
      assert (AG := p_live _ PR' x Lx). rewrite (ME x Lx EP) in AG. rewrite (contact_pair _ _ _ _ _ EP). exact AG.
    + apply (p_none _ PR'). intros x Lx. destruct (pair_eqb a b (sa_a (sp_a s' x)) (sa_b (sp_a s' x))) eqn:EP; auto. rewrite <- EX. symmetry. apply existsb_exists. exists x. split; auto. apply in_app_iff.
      destruct Lx as [D|D]; auto. right. destruct (i_thr _ _ I' _ _ D) as (_ & D1' & D2'). destruct (i_live _ _ I' x (or_intror D)) as (_ & _ & Y3 & Y4 & _). unfold A.
      apply pair_eqb_iff in EP as [[-> ->]|[-> ->]]; rewrite <- SS; congruence.
Qed.
End Hist.
