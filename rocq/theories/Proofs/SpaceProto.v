(** The protocol of the collision callbacks: the state of every arbiter agrees with the trace of its pair. *)
From Coq Require Import List Arith NArith Bool Lia Permutation Relations.
From Verif Require Import SpecSpace.
From Verif.Model Require Import HashSet Space.
From Verif.Proofs Require Import Util SpaceLib SpaceInv SpaceAct SpaceOps SpaceOps2 SpaceStep SpaceSleep SpaceComp SpaceComp2 SpaceStep2 SpaceStep3.
Import ListNotations.

(** ** Traces *)
Lemma contact_snoc l e a b : contact (l ++ [e]) a b = match contact l a b with Some c => accept a b c e | None => None end.
Proof. unfold contact. now rewrite fold_left_app. Qed.
Lemma same_pair_eqb a b x y : same_pair a b x y = pair_eqb a b x y. Proof. reflexivity. Qed.
Lemma accept_sym a b c e : accept a b c e = accept b a c e.
Proof. destruct e; cbn; try reflexivity; unfold same_pair; rewrite (orb_comm (_ && _)), !(andb_comm (Nat.eqb a _)); reflexivity. Qed.
Lemma contact_sym l a b : contact l a b = contact l b a.
Proof. induction l as [|e l IH] using rev_ind; auto. rewrite !contact_snoc, IH. destruct (contact l b a); auto. apply accept_sym. Qed.
Lemma contact_pair l a b x y : pair_eqb a b x y = true -> contact l a b = contact l x y.
Proof. intros E. apply pair_eqb_iff in E as [[-> ->]|[-> ->]]; auto. apply contact_sym. Qed.
Lemma pair_eqb_trans a b c d e f : pair_eqb a b c d = true -> pair_eqb c d e f = true -> pair_eqb a b e f = true.
Proof. rewrite !pair_eqb_iff. intuition congruence. Qed.
(** an event of another pair *)
Definition about (e : Ev) a b : bool := match e with EStep => true | EBegin x y _ | EPre x y _ _ | EPost x y | ESep x y => same_pair a b x y end.
Lemma accept_other a b c e : about e a b = false -> accept a b c e = Some c.
Proof. destruct e; cbn; intros E; rewrite ?E; auto. discriminate. Qed.
Lemma contact_other l e a b : about e a b = false -> contact (l ++ [e]) a b = contact l a b.
Proof. intros E. rewrite contact_snoc. destruct (contact l a b); auto. now apply accept_other. Qed.
Lemma contact_others es : forall l a b, Forall (fun e => about e a b = false) es -> contact (l ++ es) a b = contact l a b.
Proof.
  induction es as [|e es IH]; intros l a b F; [now rewrite app_nil_r|]. inversion F; subst. change (e :: es) with ([e] ++ es). rewrite app_assoc, IH by auto. now apply contact_other.
Qed.

Definition agree (st : AState) (c : option Contact) : Prop :=
  match st with AFirst | ANormal => exists p, c = Some (Touching p) | AIgnore => c = Some Refused | ACached => c = Some Apart | AInvalid => False end.

Section Proto.
Context {T : Type} `{Time T}.
Notation Sp := (Space T).
Implicit Types (s : Sp) (b x c r : nat).

Definition ctc s x := contact (sp_log s) (sa_a (sp_a s x)) (sa_b (sp_a s x)).
Record Proto s : Prop := {
  p_live : forall x, live s x -> agree (sa_state (sp_a s x)) (ctc s x);
  p_none : forall a b, (forall x, live s x -> pair_eqb a b (sa_a (sp_a s x)) (sa_b (sp_a s x)) = false) -> contact (sp_log s) a b = Some Apart;
  p_act : forall x, In x (sp_arbs s) \/ threaded s x -> going (sa_state (sp_a s x));
  p_first : forall x, In x (sp_cache s) -> sa_state (sp_a s x) = AFirst -> In x (sp_arbs s);
  p_stamp : forall x, live s x -> (sa_stamp (sp_a s x) <= sp_stamp s)%N }.
Definition fresh (c : option Contact) := c = Some (Touching Fresh) \/ c = Some (Touching Solved).
Definition Ready s := forall x, In x (sp_arbs s) \/ threaded s x -> fresh (ctc s x).

Lemma calm_proto s s' P : Calm s s' -> Core s P -> Core s' [] -> Proto s -> Proto s'.
Proof.
  intros M I I' [P1 P2 P3 P4 P5].
  assert (A : forall x, sa_a (sp_a s' x) = sa_a (sp_a s x) /\ sa_b (sp_a s' x) = sa_b (sp_a s x) /\ ba s' x = ba s x /\ bb s' x = bb s x /\ sa_state (sp_a s' x) = sa_state (sp_a s x)) by apply M.
  assert (C : forall x, ctc s' x = ctc s x). { intros x. unfold ctc. rewrite (m_log _ _ M). destruct (A x) as (-> & -> & _). reflexivity. }
  constructor.
  - intros x L. apply (m_live _ _ M) in L. rewrite C. destruct (A x) as (_ & _ & _ & _ & ->). auto.
  - intros a b N. rewrite (m_log _ _ M). apply P2. intros x L. apply (m_live _ _ M) in L. specialize (N x L). destruct (A x) as (<- & <- & _). auto.
  - intros x L. apply (m_act _ _ M) in L. destruct (A x) as (_ & _ & _ & _ & ->). auto.
  - intros x L F. destruct (A x) as (_ & _ & _ & _ & E). rewrite E in F.
    assert (L' : live s x) by (apply (m_live _ _ M); left; auto).
    assert (D : In x (sp_arbs s') \/ threaded s' x). { apply (m_act _ _ M). destruct L' as [L'|L']; auto. }
    destruct D as [D|D]; auto. destruct (i_thr_st _ _ I' x D) as [?|[? _]]; tauto.
  - intros x L. apply (m_live _ _ M) in L. rewrite (m_stamp _ _ M). destruct (m_fr _ _ M x) as [->| ->]; [auto|lia].
Qed.
Lemma calm_ready s s' : Calm s s' -> Ready s -> Ready s'.
Proof.
  intros M R x L. apply (m_act _ _ M) in L. unfold ctc. rewrite (m_log _ _ M). destruct (m_a _ _ M x) as (-> & -> & _). apply R. auto.
Qed.
Lemma calm_same s s' : (forall y, arbl s' y = arbl s y) -> sp_a s' = sp_a s -> sp_log s' = sp_log s -> sp_stamp s' = sp_stamp s -> sp_cache s' = sp_cache s -> sp_arbs s' = sp_arbs s -> Calm s s'.
Proof.
  intros V A G S C B. assert (TH : forall x, threaded s' x <-> threaded s x) by (intros x; unfold threaded, ba; rewrite A, V; tauto).
  constructor; auto.
  - intros x. unfold ba, bb. rewrite A. splits; reflexivity.
  - intros x _. now rewrite A.
  - intros x. rewrite A. auto.
  - intros x. unfold live. rewrite TH, C. tauto.
  - intros x. rewrite TH, B. tauto.
Qed.

(** ** The beginning of a step *)
Lemma contact_step l a b : contact (l ++ [EStep]) a b = match contact l a b with Some (Touching _) => Some (Touching Fresh) | c => c end.
Proof. rewrite contact_snoc. destruct (contact l a b) as [[| |]|]; reflexivity. Qed.
Lemma start_proto s s1 : Core s [] -> Proto s -> Core (set_arbs s1 []) [] -> sp_log s1 = sp_log s ++ [EStep] -> sp_stamp s1 = (sp_stamp s + 1)%N -> (forall x, sp_a s1 x = reset_state (sp_arbs s) (sp_a s) x) ->
  (forall x, live (set_arbs s1 []) x <-> live s x) -> sp_cache s1 = sp_cache s -> (forall y, arbl s1 y = dels (sp_arbs s) (arbl s y)) ->
  let t := set_arbs s1 [] in Proto t /\ Ready t /\ (forall a b p, contact (sp_log t) a b = Some (Touching p) -> p = Fresh) /\ (forall x, live t x -> (sa_stamp (sp_a t x) < sp_stamp t)%N).
Proof.
  intros I [P1 P2 P3 P4 P5] I1 G S A L C V t.
  assert (ST : forall x, sa_a (sp_a t x) = sa_a (sp_a s x) /\ sa_b (sp_a t x) = sa_b (sp_a s x) /\ sa_stamp (sp_a t x) = sa_stamp (sp_a s x) /\ sa_ba (sp_a t x) = sa_ba (sp_a s x) /\ sa_state (sp_a t x) = if memb x (sp_arbs s) then ANormal else sa_state (sp_a s x)).
  { intros x. unfold t. ss. rewrite A. unfold reset_state. destruct (memb x (sp_arbs s)); splits; reflexivity. }
  assert (CC : forall x, ctc t x = match ctc s x with Some (Touching _) => Some (Touching Fresh) | c => c end).
  { intros x. unfold ctc. destruct (ST x) as (-> & -> & _). change (sp_log t) with (sp_log s1). rewrite G. apply contact_step. }
  assert (TH : forall x, threaded t x -> threaded s x). { intros x. unfold threaded, ba. destruct (ST x) as (_ & _ & _ & -> & _). change (arbl t (sa_ba (sp_a s x))) with (arbl s1 (sa_ba (sp_a s x))). rewrite V. intros D. apply dels_In in D; [tauto|apply I].  }
  splits.
  - constructor.
    + intros x Lx. apply L in Lx. rewrite CC. specialize (P1 x Lx). destruct (ST x) as (_ & _ & _ & _ & ->). destruct (memb_spec x (sp_arbs s)) as [M|M].
      * destruct (P3 x (or_introl M)) as [E|E]; rewrite E in P1; destruct P1 as (p & ->); cbn; eauto.
      * destruct (sa_state (sp_a s x)); cbn in *; try (destruct P1 as (p & ->); eauto; fail); try (rewrite P1; reflexivity). auto.
    + intros a b N. change (sp_log t) with (sp_log s1). rewrite G, contact_step, P2; auto. intros x Lx. apply L in Lx. specialize (N x Lx). destruct (ST x) as (<- & <- & _). auto.
    + intros x [[]|Tx]. apply TH in Tx. destruct (ST x) as (_ & _ & _ & _ & ->). destruct (memb x (sp_arbs s)); [right; auto|]. auto.
    + intros x Hx F. change (sp_cache t) with (sp_cache s1) in Hx. rewrite C in Hx. destruct (ST x) as (_ & _ & _ & _ & E). rewrite E in F. destruct (memb_spec x (sp_arbs s)) as [M|M]; [discriminate|]. destruct (M (P4 x Hx F)).
    + intros x Lx. apply L in Lx. destruct (ST x) as (_ & _ & -> & _). change (sp_stamp t) with (sp_stamp s1). rewrite S. specialize (P5 x Lx). lia.
  - intros x [[]|Tx]. apply TH in Tx. rewrite CC. left. assert (Lx : live s x) by (right; auto). specialize (P1 x Lx). destruct (P3 x (or_intror Tx)) as [E|E]; rewrite E in P1; destruct P1 as (p & ->); reflexivity.
  - intros a b p. change (sp_log t) with (sp_log s1). rewrite G, contact_step. destruct (contact (sp_log s) a b) as [[| |]|]; congruence.
  - intros x Lx. apply L in Lx. destruct (ST x) as (_ & _ & -> & _). change (sp_stamp t) with (sp_stamp s1). rewrite S. specialize (P5 x Lx). lia.
Qed.

(** ** Touching pairs *)
Definition Unseen s h := forall p, contact (sp_log s) (h_a h) (h_b h) = Some (Touching p) -> p = Fresh.
Lemma answer_about st h so a b : let '(_, _, evs) := answer st h so in same_pair a b (h_a h) (h_b h) = false -> Forall (fun e => about e a b = false) evs.
Proof.
  unfold answer. destruct st, (h_begin h), (h_ign h), (h_pre h), so; cbn; intros E; repeat constructor; auto.
Qed.
Lemma answer_ok st h so l a b : same_pair a b (h_a h) (h_b h) = true -> st <> AFirst -> agree st (contact l a b) -> (forall p, contact l a b = Some (Touching p) -> p = Fresh) ->
  let '(st', act, evs) := answer st h so in agree st' (contact (l ++ evs) a b) /\ st' <> ACached /\ (act = true -> going st' /\ contact (l ++ evs) a b = Some (Touching Solved)) /\ (act = false -> st' <> AFirst).
Proof.
  intros SP NF AG UN. unfold answer. destruct st; cbn in AG; try congruence; try tauto.
  - destruct AG as (p & E). assert (p = Fresh) by auto. subst p. cbn [astate_eqb]. destruct (h_ign h), (h_pre h), so; cbn [andb app agree]; rewrite ?contact_snoc, ?E; cbn; rewrite ?SP; unfold going; splits; eauto; try discriminate; try congruence; try tauto.
  - cbn [astate_eqb]. rewrite app_nil_r. splits; auto; discriminate.
  - cbn [astate_eqb]. destruct (h_begin h); cbn [astate_eqb]; [|rewrite contact_snoc, AG; cbn; rewrite SP; splits; auto; discriminate].
    assert (Q : contact (l ++ [EBegin (h_a h) (h_b h) true]) a b = Some (Touching Fresh)) by (rewrite contact_snoc, AG; cbn; now rewrite SP).
    assert (Q2 : forall e, contact (l ++ [EBegin (h_a h) (h_b h) true] ++ [e]) a b = accept a b (Touching Fresh) e) by (intros e; rewrite app_assoc, contact_snoc, Q; reflexivity).
    destruct (h_ign h), (h_pre h), so; cbn [andb]; rewrite Q2; cbn; rewrite ?SP; unfold going; splits; eauto; try discriminate; try congruence; try tauto.
Qed.
Lemma answer_new h so l a b : same_pair a b (h_a h) (h_b h) = true -> contact l a b = Some Apart ->
  let '(st', act, evs) := answer AFirst h so in agree st' (contact (l ++ evs) a b) /\ st' <> ACached /\ (act = true -> going st' /\ contact (l ++ evs) a b = Some (Touching Solved)) /\ (act = false -> st' <> AFirst).
Proof.
  intros SP E. apply (answer_ok ACached h so l a b); auto; [discriminate|]. intros p. rewrite E. discriminate.
Qed.
Lemma hit_proto s h s' : Core s (sp_arbs s) -> Core s' (sp_arbs s') -> HitSpec s h s' -> Proto s -> Ready s -> Unseen s h -> Proto s' /\ Ready s'.
Proof.
  intros I I' HS PR RD UN. unfold HitSpec in HS. destruct (rejected s h); [now subst|]. cbv zeta in HS. set (x := hit_arb s h) in *.
  assert (KEY : let '(st', act, evs) := answer (hit_st s h) h (solid s h) in ~ threaded s x -> ~ In x (sp_arbs s) -> (live s x -> hit_pair h x s /\ hit_st s h = sa_state (sp_a s x)) -> (~ live s x -> hit_st s h = AFirst) -> (forall y, live s y -> hit_pair h y s -> y = x) ->
     agree st' (contact (sp_log s ++ evs) (h_a h) (h_b h)) /\ st' <> ACached /\ (act = true -> going st' /\ contact (sp_log s ++ evs) (h_a h) (h_b h) = Some (Touching Solved)) /\ (act = false -> st' <> AFirst)).
  { destruct (answer (hit_st s h) h (solid s h)) as [[st act] evs] eqn:EA. intros NT NX LX NLX UX.
    assert (SP : same_pair (h_a h) (h_b h) (h_a h) (h_b h) = true) by apply pair_eqb_refl.
    destruct (in_dec Nat.eq_dec x (sp_cache s)) as [XC|XC].
    - assert (Lx : live s x) by (left; auto). destruct (LX Lx) as [HP E]. assert (AG := p_live _ PR x Lx). rewrite <- E in AG.
      assert (AG' : agree (hit_st s h) (contact (sp_log s) (h_a h) (h_b h))) by (erewrite contact_pair; [exact AG|exact HP]).
      assert (NF : hit_st s h <> AFirst). { rewrite E. intros F. apply NX. apply (p_first _ PR); auto. }
      assert (Q := answer_ok (hit_st s h) h (solid s h) (sp_log s) (h_a h) (h_b h) SP NF AG' UN). rewrite EA in Q. exact Q.
    - assert (Lx : ~ live s x) by (intros [?|?]; auto). rewrite (NLX Lx) in EA.
      assert (C0 : contact (sp_log s) (h_a h) (h_b h) = Some Apart). { apply (p_none _ PR). intros y Ly. destruct (pair_eqb _ _ _ _) eqn:E; auto. exfalso. apply Lx. rewrite <- (UX y Ly E). auto. }
      assert (Q := answer_new h (solid s h) (sp_log s) (h_a h) (h_b h) SP C0). rewrite EA in Q. exact Q. }
  assert (OTH := fun a b => answer_about (hit_st s h) h (solid s h) a b). destruct (answer (hit_st s h) h (solid s h)) as [[st act] evs].
  destruct HS as (_ & _ & _ & _ & STP & _ & _ & _ & _ & Ab & Lg & AA & LV & TH & NT & IX & NX & LX & NLX & UX & CI).
  destruct (KEY NT NX LX NLX UX) as (K1 & K2 & K3 & K4). clear KEY.
  assert (AX : sp_a s' x = mkSA (h_a h) (h_b h) (ss_body (sp_s s (h_a h))) (ss_body (sp_s s (h_b h))) st (sp_stamp s)) by (rewrite AA, Nat.eqb_refl; reflexivity).
  assert (AO : forall y, y <> x -> sp_a s' y = sp_a s y) by (intros y Ny; rewrite AA; apply Nat.eqb_neq in Ny; now rewrite Ny).
  assert (CX : ctc s' x = contact (sp_log s ++ evs) (h_a h) (h_b h)) by (unfold ctc; rewrite AX, Lg; reflexivity).
  assert (CO : forall y, y <> x -> live s y -> ctc s' y = ctc s y).
  { intros y Ny Ly. unfold ctc. rewrite AO, Lg by auto. apply contact_others. apply OTH. destruct (same_pair _ _ _ _) eqn:E; auto. exfalso. apply Ny. apply UX; auto. unfold hit_pair. rewrite pair_eqb_sym. exact E. }
  assert (CA : forall y, In y (sp_cache s') -> y <> x -> live s y) by (intros y Y N; assert (D : live s' y) by (left; auto); apply LV in D as [D|D]; tauto).
  split.
  - constructor.
    + intros y Ly. destruct (Nat.eq_dec y x) as [->|Ny]; [rewrite AX, CX; auto|]. apply LV in Ly as [Ly|Ly]; [|tauto]. rewrite CO, AO by auto. now apply PR.
    + intros a b N. rewrite Lg, contact_others.
      * apply PR. intros y Ly. destruct (Nat.eq_dec y x) as [->|Ny].
        -- destruct (LX Ly) as [HP _]. specialize (N x (proj2 (LV x) (or_intror eq_refl))). rewrite AX in N. ss. unfold hit_pair in HP. destruct (pair_eqb a b (sa_a (sp_a s x)) (sa_b (sp_a s x))) eqn:E; auto. rewrite <- N. symmetry. rewrite pair_eqb_sym in HP. eapply pair_eqb_trans; eauto.
        -- specialize (N y (proj2 (LV y) (or_introl Ly))). now rewrite AO in N.
      * apply OTH. specialize (N x (proj2 (LV x) (or_intror eq_refl))). rewrite AX in N. exact N.
    + intros y Hy. destruct (Nat.eq_dec y x) as [->|Ny].
      * rewrite AX. ss. destruct act; [apply K3; auto|]. exfalso. rewrite Ab in Hy. rewrite TH in Hy. tauto.
      * rewrite AO by auto. apply PR. rewrite TH, Ab in Hy. destruct act; auto. rewrite In_snoc in Hy. tauto.
    + intros y Hy F. destruct (Nat.eq_dec y x) as [->|Ny].
      * rewrite AX in F. ss. rewrite Ab. destruct act; [apply In_snoc; auto|]. destruct (K4 eq_refl F).
      * rewrite AO in F by auto. rewrite Ab. assert (IY : In y (sp_cache s)). { destruct (CA y Hy Ny) as [?|Ty]; auto. assert (T' : threaded s' y) by now apply TH. destruct (i_thr_st _ _ I' y T') as [D|[D _]]; [|tauto]. rewrite Ab in D. apply (i_arbs _ _ I). destruct act; auto. apply In_snoc in D. tauto. }
        assert (D := p_first _ PR y IY F). destruct act; [apply In_snoc|]; auto.
    + intros y Ly. rewrite STP. destruct (Nat.eq_dec y x) as [->|Ny]; [rewrite AX; cbn; lia|]. apply LV in Ly as [Ly|Ly]; [|tauto]. rewrite AO by auto. now apply PR.
  - intros y Hy. destruct (Nat.eq_dec y x) as [->|Ny].
    + rewrite CX. right. destruct act; [apply K3; auto|]. exfalso. rewrite Ab in Hy. rewrite TH in Hy. tauto.
    + rewrite TH, Ab in Hy. assert (Hy' : In y (sp_arbs s) \/ threaded s y) by (destruct act; auto; rewrite In_snoc in Hy; tauto). rewrite CO; auto. destruct Hy' as [D|D]; [left; now apply (i_arbs _ _ I)|right; auto].
Qed.

Definition no_fresh (c : option Contact) := c <> Some (Touching Fresh).
Lemma answer_seen st h so l a b : same_pair a b (h_a h) (h_b h) = true -> st <> AFirst -> agree st (contact l a b) -> (forall p, contact l a b = Some (Touching p) -> p = Fresh) ->
  let '(_, _, evs) := answer st h so in no_fresh (contact (l ++ evs) a b).
Proof.
  intros SP NF AG UN. unfold answer, no_fresh. destruct st; cbn in AG; try congruence; try tauto.
  - destruct AG as (p & E). assert (p = Fresh) by auto. subst p. cbn [astate_eqb]. destruct (h_ign h), (h_pre h), so; cbn [andb app agree]; rewrite ?contact_snoc, ?E; cbn; rewrite ?SP; discriminate.
  - cbn [astate_eqb]. rewrite app_nil_r. rewrite AG. discriminate.
  - cbn [astate_eqb]. destruct (h_begin h); cbn [astate_eqb]; [|rewrite contact_snoc, AG; cbn; rewrite SP; discriminate].
    assert (Q : contact (l ++ [EBegin (h_a h) (h_b h) true]) a b = Some (Touching Fresh)) by (rewrite contact_snoc, AG; cbn; now rewrite SP).
    assert (Q2 : forall e, contact (l ++ [EBegin (h_a h) (h_b h) true] ++ [e]) a b = accept a b (Touching Fresh) e) by (intros e; rewrite app_assoc, contact_snoc, Q; reflexivity).
    destruct (h_ign h), (h_pre h), so; cbn [andb]; rewrite Q2; cbn; rewrite ?SP; discriminate.
Qed.
Lemma answer_new_seen h so l a b : same_pair a b (h_a h) (h_b h) = true -> contact l a b = Some Apart -> let '(_, _, evs) := answer AFirst h so in no_fresh (contact (l ++ evs) a b).
Proof.
  intros SP E. apply (answer_seen ACached h so l a b); auto; [discriminate|]. intros p. rewrite E. discriminate.
Qed.
(** after its hit the pair has had its preSolve (or is refused) *)
Lemma hit_seen s h s' : Core s (sp_arbs s) -> HitSpec s h s' -> Proto s -> Unseen s h -> rejected s h = false -> no_fresh (contact (sp_log s') (h_a h) (h_b h)).
Proof.
  intros I HS PR UN RJ. unfold HitSpec in HS. rewrite RJ in HS. cbv zeta in HS. set (x := hit_arb s h) in *.
  assert (SP : same_pair (h_a h) (h_b h) (h_a h) (h_b h) = true) by apply pair_eqb_refl.
  assert (A1 := answer_seen (hit_st s h) h (solid s h) (sp_log s) (h_a h) (h_b h) SP). assert (A2 := answer_new_seen h (solid s h) (sp_log s) (h_a h) (h_b h) SP).
  destruct (in_dec Nat.eq_dec x (sp_cache s)) as [XC|XC].
  - destruct (answer (hit_st s h) h (solid s h)) as [[st act] evs]. destruct HS as (B1 & S1 & C1 & _ & STP & _ & _ & _ & _ & Ab & Lg & AA & LV & TH & NT & IX & NX & LX & NLX & UX & CI). rewrite Lg.
    assert (Lx : live s x) by (left; auto). destruct (LX Lx) as [HP E]. assert (AG := p_live _ PR x Lx). rewrite <- E in AG. apply A1; auto.
    + intros F. apply NX. apply (p_first _ PR); auto. congruence.
    + rewrite (contact_pair _ _ _ _ _ HP). exact AG.
  - assert (F : ~ live s x -> hit_st s h = AFirst) by (destruct (answer (hit_st s h) h (solid s h)) as [[st act] evs]; tauto).
    assert (NL : ~ live s x). { destruct (answer (hit_st s h) h (solid s h)) as [[st act] evs]. destruct HS as (B1 & S1 & C1 & _ & STP & _ & _ & _ & _ & Ab & Lg & AA & LV & TH & NT & IX & NX & LX & NLX & UX & CI). intros [D|D]; tauto. }
    rewrite (F NL) in *. destruct (answer AFirst h (solid s h)) as [[st act] evs]. destruct HS as (B1 & S1 & C1 & _ & STP & _ & _ & _ & _ & Ab & Lg & AA & LV & TH & NT & IX & NX & LX & NLX & UX & CI). rewrite Lg. apply A2.
    apply (p_none _ PR). intros y Ly. destruct (pair_eqb (h_a h) (h_b h) (sa_a (sp_a s y)) (sa_b (sp_a s y))) eqn:E; auto. assert (D : y = x) by (apply UX; auto). subst y. tauto.
Qed.
Lemma hits_same s hs s' a b : HitsRel s hs s' -> (forall k, In k hs -> pair_eqb a b (h_a k) (h_b k) = false) -> contact (sp_log s') a b = contact (sp_log s) a b.
Proof.
  induction 1 as [s|s h s1 hs s' IC HO HS HR IH]; intros NE; auto. rewrite IH; [|intros k Hk; apply NE; cbn; auto]. unfold HitSpec in HS. destruct (rejected s h); [now subst|]. cbv zeta in HS. assert (OTH := answer_about (hit_st s h) h (solid s h) a b). destruct (answer _ _ _) as [[st act] evs].
  destruct HS as (_ & _ & _ & _ & _ & _ & _ & _ & _ & _ & Lg & _). rewrite Lg. apply contact_others. apply OTH. apply NE. cbn; auto.
Qed.
Lemma answer_nc st h so : fst (fst (answer st h so)) <> ACached.
Proof. unfold answer. destruct st, (h_begin h), (h_ign h), (h_pre h), so; cbn; discriminate. Qed.
Lemma hit_unseen s h s' k : HitSpec s h s' -> pair_eqb (h_a h) (h_b h) (h_a k) (h_b k) = false -> Unseen s k -> Unseen s' k.
Proof.
  intros HS NE UN. unfold HitSpec in HS. destruct (rejected s h); [now subst|]. cbv zeta in HS. assert (OTH := answer_about (hit_st s h) h (solid s h) (h_a k) (h_b k)). destruct (answer _ _ _) as [[st act] evs].
  destruct HS as (_ & _ & _ & _ & _ & _ & _ & _ & _ & _ & Lg & _). intros p. rewrite Lg, contact_others; [apply UN|]. apply OTH. rewrite same_pair_eqb, pair_eqb_sym. auto.
Qed.
Lemma rejected_ext s s' h : sp_s s' = sp_s s -> sp_c s' = sp_c s -> (forall y, conl s' y = conl s y) -> rejected s' h = rejected s h.
Proof. intros A B C. unfold rejected, reject_constraints. rewrite A, B. change (sb_cons (bod s' ?y)) with (conl s' y). now rewrite C. Qed.
(** the arbiters after the touching pairs: those that were hit, and the others as they were *)
Record Hitted s (hs : list Hit) s' : Prop := {
  j_hit : forall h, In h hs -> rejected s h = false -> exists x, In x (sp_cache s') /\ hit_pair h x s' /\ sa_stamp (sp_a s' x) = sp_stamp s /\ sa_state (sp_a s' x) <> ACached;
  j_not : forall x, live s' x -> (forall h, In h hs -> rejected s h = false -> ~ hit_pair h x s') -> live s x /\ sp_a s' x = sp_a s x /\ (In x (sp_arbs s') -> In x (sp_arbs s)) }.
Lemma hits_keep t1 hs t' x0 : HitsRel t1 hs t' -> In x0 (sp_cache t1) -> (forall k', In k' hs -> rejected t1 k' = false -> ~ hit_pair k' x0 t1) -> live t' x0 /\ sp_a t' x0 = sp_a t1 x0 /\ In x0 (sp_cache t').
Proof.
  induction 1 as [t1|t1 j t2 hs t' IC HO HS HR IH]; intros IX NH; [splits; auto; left; auto|].
  assert (Q : In x0 (sp_cache t2) /\ sp_a t2 x0 = sp_a t1 x0 /\ forall k', rejected t2 k' = rejected t1 k').
  { unfold HitSpec in HS. destruct (rejected t1 j) eqn:RJ; [now subst|]. cbv zeta in HS. destruct (answer _ _ _) as [[st' act'] evs'].
    destruct HS as (B1 & S1 & C1 & _ & _ & _ & _ & _ & _ & Ab & Lg & AA & LV & TH & NT & IX2 & NX & LX & NLX & UX & CI). splits; [apply CI; auto| |intros k'; apply rejected_ext; auto; intros y; unfold conl; now rewrite B1].
    rewrite AA. destruct (Nat.eqb_spec x0 (hit_arb t1 j)) as [E|E]; auto. exfalso. apply (NH j); cbn; auto. rewrite E. apply LX. rewrite <- E. left; auto. }
  destruct Q as (Q1 & Q2 & Q3). rewrite <- Q2. apply IH; auto. intros k' Hk'. rewrite Q3. unfold hit_pair. rewrite Q2. apply NH. cbn; auto.
Qed.
Lemma hits_proto s hs s' : HitsRel s hs s' -> Core s' (sp_arbs s') -> distinct_pairs hs -> Proto s -> Ready s -> (forall h, In h hs -> Unseen s h) -> Proto s' /\ Ready s' /\ Hitted s hs s' /\ forall h, In h hs -> rejected s h = false -> no_fresh (contact (sp_log s') (h_a h) (h_b h)).
Proof.
  induction 1 as [s|s h s1 hs s' IC HO HS HR IH]; intros I' DP PR RD UN.
  { splits; auto; [constructor; [intros h []|]; auto|intros h []]. }
  inversion DP as [|h' hs' DP1 DP2]; subst. rewrite Forall_forall in DP1.
  assert (I1 : Core s1 (sp_arbs s1)) by (inversion HR; subst; auto).
  destruct (hit_proto s h s1 IC I1 HS PR RD) as [PR1 RD1]; [apply UN; cbn; auto|].
  destruct (IH I' DP2 PR1 RD1) as (PR' & RD' & J & SN). { intros k Hk. eapply hit_unseen; eauto. apply UN; cbn; auto. }
  split; [auto|split; [auto|]]. assert (FR := hits_frame _ _ _ HR). destruct FR as (F1 & F2 & F3 & F4 & F5 & _).
  assert (HS0 := HS). assert (SH := hit_seen s h s1 IC HS PR (UN h (or_introl eq_refl))). assert (SM := hits_same s1 hs s' (h_a h) (h_b h) HR DP1).
  unfold HitSpec in HS. destruct (rejected s h) eqn:RJ.
  { subst s1. split; [constructor|].
    - intros k [<-|Hk] Rk; [congruence|]. now apply (j_hit _ _ _ J).
    - intros x Lx N. apply (j_not _ _ _ J); auto. intros k Hk. apply N. cbn; auto.
    - intros k [<-|Hk] Rk; [congruence|]. now apply SN. }
  cbv zeta in HS. assert (NC := answer_nc (hit_st s h) h (solid s h)). destruct (answer _ _ _) as [[st act] evs]. cbn [fst] in NC.
  destruct HS as (B1 & S1 & C1 & _ & STP & _ & _ & _ & _ & Ab & Lg & AA & LV & TH & NT & IX & NX & LX & NLX & UX & CI).
  set (x0 := hit_arb s h) in *. assert (RJX : forall k, rejected s1 k = rejected s k) by (intros k; apply rejected_ext; auto; intros y; unfold conl; now rewrite B1).
  assert (AX : sp_a s1 x0 = mkSA (h_a h) (h_b h) (ss_body (sp_s s (h_a h))) (ss_body (sp_s s (h_b h))) st (sp_stamp s)) by (rewrite AA, Nat.eqb_refl; reflexivity).
  split; [constructor|].
  - intros k [<-|Hk] Rk.
    + exists x0. assert (NH : forall k', In k' hs -> rejected s1 k' = false -> ~ hit_pair k' x0 s1). { intros k' Hk' _ HP. unfold hit_pair in HP. rewrite AX in HP. ss. rewrite pair_eqb_sym, (DP1 k' Hk') in HP. discriminate. }
      assert (LL : live s' x0 /\ sp_a s' x0 = sp_a s1 x0 /\ In x0 (sp_cache s')).
      { eapply hits_keep; eauto. }
      destruct LL as (_ & E & L2). unfold hit_pair. rewrite E, AX. ss. splits; auto. apply pair_eqb_refl.
    + rewrite <- RJX in Rk. destruct (j_hit _ _ _ J k Hk Rk) as (x & Q1 & Q2 & Q3 & Q4). exists x. splits; auto. congruence.
  - intros x Lx N. destruct (j_not _ _ _ J x Lx) as (Q1 & Q2 & Q3). { intros k Hk Rk. apply N; cbn; auto. now rewrite <- RJX. }
    assert (Nx : x <> x0). { intros ->. apply (N h (or_introl eq_refl) RJ). unfold hit_pair. rewrite Q2, AX. apply pair_eqb_refl. }
    apply LV in Q1 as [Q1|Q1]; [|tauto]. splits; auto; [rewrite Q2, AA; apply Nat.eqb_neq in Nx; now rewrite Nx|]. intros D. specialize (Q3 D). rewrite Ab in Q3. destruct act; auto. apply In_snoc in Q3. tauto.
  - intros k [<-|Hk] Rk; [rewrite SM; now apply SH|]. apply SN; auto. now rewrite RJX.
Qed.

(** ** Ageing *)
Lemma aged_thr s x s1 y : Aged s x s1 -> (threaded s1 y <-> threaded s y).
Proof.
  intros G. unfold threaded, arbl. rewrite (g_b _ _ _ G). assert (E : ba s1 y = ba s y); [|now rewrite E]. destruct (Nat.eq_dec y x) as [->|N]; [apply G|]. unfold ba. now rewrite (g_a' _ _ _ G).
Qed.
Lemma age_proto s x s1 : Core s [] -> Core s1 [] -> In x (sp_cache s) -> Aged s x s1 -> Proto s -> Ready s -> Proto s1 /\ Ready s1.
Proof.
  intros I I1 XC G PR RD. assert (TH := fun y => aged_thr s x s1 y G). destruct (g_lists _ _ _ G) as (_ & _ & _ & _ & Eb & Es & _).
  assert (LX : live s x) by (left; auto).
  assert (LV : forall y, live s1 y -> live s y) by (intros y [D|D]; [left; now apply (g_sub _ _ _ G)|right; now apply TH]).
  assert (LW : forall y, y <> x -> live s y -> live s1 y) by (intros y N [D|D]; [left; now apply (g_cache _ _ _ G)|right; now apply TH]).
  assert (PX : sa_a (sp_a s1 x) = sa_a (sp_a s x) /\ sa_b (sp_a s1 x) = sa_b (sp_a s x)) by (split; apply G). destruct PX as [PX1 PX2].
  assert (ACT : In x (sp_arbs s) \/ threaded s x -> s1 = s).
  { intros D. apply (g_keep _ _ _ G). assert (D' : In x (sp_arbs s)) by (destruct D as [D|D]; auto; destruct (i_thr_st _ _ I x D) as [?|[? _]]; tauto). apply (i_arbs _ _ I) in D' as [_ D']. unfold ticks. rewrite D'. lia. }
  assert (OT : forall a b, pair_eqb a b (sa_a (sp_a s x)) (sa_b (sp_a s x)) = false -> contact (sp_log s1) a b = contact (sp_log s) a b).
  { intros a b N. destruct (g_log _ _ _ G) as [[-> _]|(-> & _)]; auto. now apply contact_other. }
  assert (CO : forall y, y <> x -> live s y -> ctc s1 y = ctc s y).
  { intros y Ny Ly. unfold ctc. rewrite (g_a' _ _ _ G) by auto. apply OT. destruct (pair_eqb _ _ _ _) eqn:E; auto. exfalso. apply Ny. now apply (i_uniq _ _ I). }
  assert (CX : agree (sa_state (sp_a s1 x)) (ctc s1 x)).
  { assert (AG := p_live _ PR x LX). unfold ctc. rewrite PX1, PX2. destruct (g_log _ _ _ G) as [[-> ->]|(-> & NC & -> & _)]; auto. rewrite contact_snoc. fold (ctc s x).
    cbn. rewrite same_pair_eqb, pair_eqb_refl. destruct (sa_state (sp_a s x)); cbn in AG; try congruence; try tauto; try (destruct AG as (p & ->); reflexivity). rewrite AG. reflexivity. }
  split.
  - constructor.
    + intros y Ly. destruct (Nat.eq_dec y x) as [->|Ny]; auto. rewrite CO, (g_a' _ _ _ G) by auto. now apply PR, LV.
    + intros a b N. destruct (pair_eqb a b (sa_a (sp_a s x)) (sa_b (sp_a s x))) eqn:E.
      * assert (NL : ~ In x (sp_cache s1)). { intros D. specialize (N x (or_introl D)). rewrite PX1, PX2, E in N. discriminate. }
        rewrite (g_gone _ _ _ G XC NL) in CX. cbn in CX. unfold ctc in CX. rewrite PX1, PX2 in CX. rewrite (contact_pair _ _ _ _ _ E). auto.
      * rewrite OT by auto. apply PR. intros y Ly. destruct (Nat.eq_dec y x) as [->|Ny]; auto. specialize (N y (LW y Ny Ly)). now rewrite (g_a' _ _ _ G) in N.
    + intros y. rewrite Eb, TH. intros D. destruct (Nat.eq_dec y x) as [->|Ny]; [rewrite (ACT D); now apply PR|]. rewrite (g_a' _ _ _ G) by auto. now apply PR.
    + intros y Hy F. rewrite Eb. apply (g_sub _ _ _ G) in Hy. destruct (Nat.eq_dec y x) as [->|Ny].
      * destruct (g_log _ _ _ G) as [[_ E]|(_ & _ & E & _)]; [|congruence]. rewrite E in F. now apply PR.
      * rewrite (g_a' _ _ _ G) in F by auto. now apply PR.
    + intros y Ly. rewrite Es. apply LV in Ly. assert (E : sa_stamp (sp_a s1 y) = sa_stamp (sp_a s y)); [|rewrite E; now apply PR]. destruct (Nat.eq_dec y x) as [->|Ny]; [apply G|]. now rewrite (g_a' _ _ _ G).
  - intros y. rewrite Eb, TH. intros D. destruct (Nat.eq_dec y x) as [->|Ny]; [rewrite (ACT D); now apply RD|]. rewrite CO; auto. destruct D as [D|D]; [left; now apply (i_arbs _ _ I)|right; auto].
Qed.
Lemma age_protos s l s' : AgeRel s l s' -> NoDup l -> Proto s -> Ready s -> Proto s' /\ Ready s' /\
  (forall x, ~ In x l -> sp_a s' x = sp_a s x /\ (In x (sp_cache s) -> In x (sp_cache s'))) /\
  (forall x, In x l -> ticks s x = 0%N -> sp_a s' x = sp_a s x /\ (In x (sp_cache s) -> In x (sp_cache s'))) /\ (forall x, In x l -> ticks s x <> 0%N -> resting s x = false -> sa_state (sp_a s' x) = ACached) /\
  (forall x, live s' x -> live s x).
Proof.
  induction 1 as [s|s x s1 l s' I X I1 G HR IH]; intros ND PR RD; [splits; auto; intros x []|].
  apply NoDup_cons_iff in ND as [N1 N2]. destruct (age_proto s x s1 I I1 X G PR RD) as [PR1 RD1]. destruct (IH N2 PR1 RD1) as (PR' & RD' & K1 & K2 & K3 & K4).
  assert (TK : forall y, ticks s1 y = ticks s y /\ resting s1 y = resting s y).
  { destruct (g_lists _ _ _ G) as (_ & _ & _ & _ & _ & Es & _). intros y. unfold ticks, resting, is_stat, sleeping, kind, bod. rewrite Es, (g_b _ _ _ G).
    assert (E : sa_stamp (sp_a s1 y) = sa_stamp (sp_a s y) /\ ba s1 y = ba s y /\ bb s1 y = bb s y); [|destruct E as (-> & -> & ->); auto].
    destruct (Nat.eq_dec y x) as [->|Ny]; [splits; apply G|]. unfold ba, bb. rewrite (g_a' _ _ _ G) by auto. splits; reflexivity. }
  splits; auto.
  - intros y Ny. cbn [In] in Ny. assert (E1 : y <> x) by (intros ->; tauto). destruct (K1 y) as [Q1 Q2]; [tauto|]. rewrite Q1, (g_a' _ _ _ G) by auto. split; auto. intros D. apply Q2. now apply (g_cache _ _ _ G).
  - intros y [<-|Hy] Z.
    + rewrite (g_keep _ _ _ G Z) in *. now apply K1.
    + assert (E1 : y <> x) by (intros ->; tauto). destruct (TK y) as [TY _]. rewrite <- TY in Z. destruct (K2 y Hy Z) as [Q1 Q2]. rewrite Q1, (g_a' _ _ _ G) by auto. split; auto. intros D. apply Q2. now apply (g_cache _ _ _ G).
  - intros y [<-|Hy] Z RS.
    + destruct (K1 x N1) as [Q1 _]. rewrite Q1. now apply (g_old _ _ _ G).
    + destruct (TK y) as [TY RY]. apply K3; auto; congruence.
  - intros y Ly. apply K4 in Ly. destruct Ly as [D|D]; [left; now apply (g_sub _ _ _ G)|right; now apply (aged_thr s x s1 y G)].
Qed.

(** ** postSolve *)
Definition posts s (l : list nat) := map (fun x => EPost (sa_a (sp_a s x)) (sa_b (sp_a s x))) l.
Lemma post_loop l : forall s, each post_one s l = Some (set_log s (sp_log s ++ posts s l)).
Proof.
  induction l as [|x l IH]; intros s; cbn [each posts map]; [rewrite app_nil_r; destruct s; reflexivity|]. unfold post_one at 1. rewrite IH. f_equal. ss. unfold posts. ss. rewrite <- app_assoc. reflexivity.
Qed.
Lemma contact_posts s l a b log : NoDup l -> (forall x y, In x l -> In y l -> same_shapes s x y -> x = y) ->
  ((forall x, In x l -> pair_eqb a b (sa_a (sp_a s x)) (sa_b (sp_a s x)) = false) /\ contact (log ++ posts s l) a b = contact log a b) \/
  (exists x, In x l /\ pair_eqb a b (sa_a (sp_a s x)) (sa_b (sp_a s x)) = true /\ (fresh (contact log a b) -> contact (log ++ posts s l) a b = Some (Touching Posted))).
Proof.
  intros ND UQ. destruct (existsb (fun x => pair_eqb a b (sa_a (sp_a s x)) (sa_b (sp_a s x))) l) eqn:E.
  - right. apply existsb_exists in E as (x & Hx & E). exists x. splits; auto. intros F. apply in_split in Hx as (l1 & l2 & ->).
    assert (NO : forall y, In y (l1 ++ l2) -> about (EPost (sa_a (sp_a s y)) (sa_b (sp_a s y))) a b = false).
    { intros y Hy. cbn. rewrite same_pair_eqb. destruct (pair_eqb a b (sa_a (sp_a s y)) (sa_b (sp_a s y))) eqn:E2; auto. exfalso. assert (y = x).
      { apply UQ; [apply in_app_iff in Hy; apply in_app_iff; cbn; tauto|apply in_app_iff; cbn; auto|]. unfold same_shapes. rewrite pair_eqb_sym in E2. eapply pair_eqb_trans; eauto. }
      subst y. apply NoDup_remove_2 in ND. tauto. }
    unfold posts. rewrite map_app. cbn [map]. change (?e :: ?m) with ([e] ++ m). rewrite app_assoc, app_assoc, contact_others.
    + rewrite contact_snoc, contact_others; [|apply Forall_forall; intros e He; apply in_map_iff in He as (y & <- & Hy); apply NO, in_app_iff; auto]. cbn. rewrite same_pair_eqb, E. destruct F as [->| ->]; reflexivity.
    + apply Forall_forall; intros e He; apply in_map_iff in He as (y & <- & Hy); apply NO, in_app_iff; auto.
  - left. assert (NO : forall x, In x l -> pair_eqb a b (sa_a (sp_a s x)) (sa_b (sp_a s x)) = false). { intros x Hx. destruct (pair_eqb _ _ _ _) eqn:E2; auto. rewrite <- E. symmetry. apply existsb_exists. eauto. }
    split; auto. apply contact_others. apply Forall_forall; intros e He; apply in_map_iff in He as (y & <- & Hy). apply NO; auto.
Qed.
Lemma post_proto s : Core s [] -> Proto s -> Ready s -> let s' := set_log s (sp_log s ++ posts s (sp_arbs s)) in Proto s'.
Proof.
  intros I PR RD s'. assert (UQ : forall x y, In x (sp_arbs s) -> In y (sp_arbs s) -> same_shapes s x y -> x = y) by (intros x y Hx Hy; apply (i_uniq _ _ I); left; now apply (i_arbs _ _ I)).
  assert (CP := fun a b => contact_posts s (sp_arbs s) a b (sp_log s) (i_arbs_nd _ _ I) UQ).
  constructor; try apply PR.
  - intros x Lx. change (live s x) in Lx. change (sa_state (sp_a s' x)) with (sa_state (sp_a s x)). unfold ctc. change (sp_a s') with (sp_a s). change (sp_log s') with (sp_log s ++ posts s (sp_arbs s)).
    destruct (CP (sa_a (sp_a s x)) (sa_b (sp_a s x))) as [[_ ->]|(y & Hy & E & F)]; [now apply PR|].
    assert (x = y) by (apply (i_uniq _ _ I); auto; left; now apply (i_arbs _ _ I)). subst y. rewrite F by (apply RD; auto). destruct (p_act _ PR x (or_introl Hy)) as [-> | ->]; cbn; eauto.
  - intros a b N. change (sp_log s') with (sp_log s ++ posts s (sp_arbs s)). destruct (CP a b) as [[_ ->]|(y & Hy & E & F)]; [now apply PR|]. exfalso. assert (Ly : live s y) by (left; now apply (i_arbs _ _ I)). specialize (N y Ly). change (sp_a s') with (sp_a s) in N. congruence.
Qed.
End Proto.
