(** The first half of a step: resetting the arbiters, and the touching pairs. *)
From Coq Require Import List Arith NArith Bool Lia Permutation FunctionalExtensionality.
From Verif.Model Require Import HashSet Space.
From Verif.Proofs Require Import Util SpaceLib SpaceInv SpaceAct SpaceOps SpaceOps2.
Import ListNotations.

Section Step.
Context {T : Type} `{Time T}.
Notation Sp := (Space T).
Implicit Types (s : Sp) (b x c r : nat).

(** ** Resetting *)
Definition reset_state (l : list nat) (f : nat -> SArb) (x : nat) : SArb := if memb x l then a_state (f x) ANormal else f x.
Lemma start_loop l : forall s, (forall x y, In x (arbl s y) -> y = ba s x \/ y = bb s x) -> (forall y, NoDup (arbl s y)) ->
  (forall x, In x l -> root s (ba s x) = None /\ root s (bb s x) = None) ->
  exists s', each start_arb s l = Some s' /\ SameL s s' /\ sp_log s' = sp_log s /\ (forall x, sp_a s' x = reset_state l (sp_a s) x) /\ (forall y, arbl s' y = dels l (arbl s y)) /\
   (forall y, kind s' y = kind s y /\ root s' y = root s y /\ next s' y = next s y /\ conl s' y = conl s y /\ shl s' y = shl s y /\ sb_in (sp_b s' y) = sb_in (sp_b s y) /\ idle s' y = idle s y).
Proof.
  induction l as [|x l IH]; intros s HE ND HR; cbn [each].
  - exists s. splits; auto; [apply sameL_refl|]. intros y. splits; reflexivity.
  - unfold start_arb at 1. set (s1 := upd_a s x _). 
    assert (AA : forall y, sa_ba (sp_a s1 y) = ba s y /\ sa_bb (sp_a s1 y) = bb s y). { intros y. unfold s1, ba, bb. ss. rewrite upd_spec. destruct (Nat.eqb_spec y x); subst; auto. }
    destruct (AA x) as [E1 E2]. rewrite E1, E2. destruct (HR x (or_introl eq_refl)) as [R1 R2].
    unfold sleeping. change (sb_root (bod s1 (ba s x))) with (root s (ba s x)). change (sb_root (bod s1 (bb s x))) with (root s (bb s x)). rewrite R1, R2. cbn [negb andb].
    destruct (unthread_rest s1 x) as (U1 & U2 & U3 & U4).
    assert (UA : forall y, arbl (unthread s1 x) y = del x (arbl s y)).
    { intros y. assert (D : y <> ba s x -> y <> bb s x -> ~ In x (arbl s y)). { intros N1 N2 D. destruct (HE x y D); congruence. }
      assert (DD : del x (del x (arbl s y)) = del x (arbl s y)). { apply del_none. rewrite del_In by apply ND. tauto. }
      unfold unthread, arbl. ss. rewrite !upd_spec. unfold bod. rewrite E1, E2. change (sp_b s1) with (sp_b s). unfold arbl in *. ss.
      destruct (Nat.eqb_spec y (bb s x)) as [F1|N1].
      - rewrite <- F1. destruct (Nat.eqb_spec y (ba s x)) as [F2|N2]; ss; [rewrite <- F2|]; auto.
      - destruct (Nat.eqb_spec y (ba s x)) as [F2|N2]; ss; [rewrite <- F2; auto|]. rewrite del_none; auto. }
    set (s2 := unthread s1 x) in *.
    assert (A2 : forall y, sp_a s2 y = if Nat.eqb y x then a_state (sp_a s y) ANormal else sp_a s y). { intros y. rewrite U3. unfold s1. ss. rewrite upd_spec. destruct (Nat.eqb_spec y x); subst; auto. }
    assert (B2 : forall y, ba s2 y = ba s y /\ bb s2 y = bb s y). { intros y. unfold ba, bb. rewrite A2. destruct (Nat.eqb y x); auto. }
    destruct (IH s2) as (s' & E & L' & G' & A' & R' & V').
    + intros y z Hy. rewrite UA in Hy. apply del_incl in Hy. destruct (B2 y) as [-> ->]. auto.
    + intros y. rewrite UA. now apply del_nodup.
    + intros y Hy. destruct (B2 y) as [-> ->]. destruct (U1 (ba s y)) as (_ & -> & _). destruct (U1 (bb s y)) as (_ & -> & _). apply HR. cbn; auto.
    + exists s'. splits; auto.
      * eapply sameL_trans; [|exact L']. eapply sameL_trans; [|exact U2]. constructor; reflexivity.
      * intros y. rewrite A'. unfold reset_state. rewrite A2. cbn [memb existsb]. fold (memb y l). destruct (Nat.eqb_spec y x), (memb y l); reflexivity.
      * intros y. rewrite R', UA. reflexivity.
      * intros y. destruct (V' y) as (? & ? & ? & ? & ? & ? & ?), (U1 y) as (? & ? & ? & ? & ? & ? & ?). splits; etransitivity; eauto.
Qed.
Lemma start_ok s : Core s [] -> let s0 := emit (set_stamp s (sp_stamp s + 1)%N) EStep in exists s1, each start_arb s0 (sp_arbs s0) = Some s1 /\ Core (set_arbs s1 []) [] /\
  sp_log s1 = sp_log s ++ [EStep] /\ sp_stamp s1 = (sp_stamp s + 1)%N /\ (forall x, sp_a s1 x = reset_state (sp_arbs s) (sp_a s) x) /\ (forall x, live (set_arbs s1 []) x <-> live s x) /\ sp_cache s1 = sp_cache s /\
  sp_s s1 = sp_s s /\ sp_c s1 = sp_c s /\ sp_didx s1 = sp_didx s /\ sp_dyn s1 = sp_dyn s /\ sp_pool s1 = sp_pool s /\ sp_na s1 = sp_na s /\ (forall y, kind s1 y = kind s y /\ root s1 y = root s y /\ sb_in (sp_b s1 y) = sb_in (sp_b s y) /\ idle s1 y = idle s y) /\
  sp_sb s1 = sp_sb s /\ sp_sleep s1 = sp_sleep s /\ (forall y, arbl s1 y = dels (sp_arbs s) (arbl s y)) /\ (forall y, conl s1 y = conl s y) /\ sp_cons s1 = sp_cons s.
Proof.
  intros I s0.
  assert (THR : forall x, In x (sp_arbs s) -> threaded s x). { intros x Hx. destruct (in_dec Nat.eq_dec x (arbl s (ba s x))) as [|N]; auto. exfalso. apply (i_pend _ _ I x). auto. }
  destruct (start_loop (sp_arbs s) s0) as (s1 & E & L & G & A & R & V).
  - intros x y. change (In x (arbl s y) -> y = ba s x \/ y = bb s x). intros Hx. apply (i_thr _ _ I) in Hx. tauto.
  - intros y. apply (i_thr_nd _ _ I).
  - intros x Hx. apply (i_awake _ _ I x Hx). auto.
  - exists s1. change (sp_arbs s0) with (sp_arbs s). split; auto. set (s' := set_arbs s1 []).
    change (arbl s0) with (arbl s) in R. change (sp_a s0) with (sp_a s) in A.
    assert (V' : forall y, kind s' y = kind s y /\ root s' y = root s y /\ next s' y = next s y /\ conl s' y = conl s y /\ shl s' y = shl s y /\ sb_in (sp_b s' y) = sb_in (sp_b s y) /\ idle s' y = idle s y) by exact V.
    assert (K : forall y, kind s' y = kind s y) by apply V'. assert (Rt : forall y, root s' y = root s y) by apply V'. assert (N : forall y, next s' y = next s y) by apply V'.
    assert (C : forall y, conl s' y = conl s y) by apply V'. assert (SH : forall y, shl s' y = shl s y) by apply V'. assert (IN : forall y, sb_in (sp_b s' y) = sb_in (sp_b s y)) by apply V'.
    assert (ID : forall y, idle s' y = idle s y) by apply V'. clear V.
    assert (INB : forall y, inb s' y <-> inb s y) by (intros y; unfold inb; now rewrite IN).
    assert (FA : forall x, sa_a (sp_a s' x) = sa_a (sp_a s x) /\ sa_b (sp_a s' x) = sa_b (sp_a s x) /\ ba s' x = ba s x /\ bb s' x = bb s x).
    { intros x. unfold ba, bb, s'. ss. rewrite A. unfold reset_state. destruct (memb x (sp_arbs s)); splits; reflexivity. }
    assert (BA : forall x, ba s' x = ba s x) by apply FA. assert (BB : forall x, bb s' x = bb s x) by apply FA. assert (SA : forall x, sa_a (sp_a s' x) = sa_a (sp_a s x)) by apply FA. assert (SB : forall x, sa_b (sp_a s' x) = sa_b (sp_a s x)) by apply FA.
    assert (AI : forall y z, In y (arbl s' z) <-> In y (arbl s z) /\ ~ In y (sp_arbs s)). { intros y z. change (arbl s' z) with (arbl s1 z). rewrite R. apply dels_In, I. }
    assert (TH : forall y, threaded s' y <-> threaded s y /\ ~ In y (sp_arbs s)) by (intros y; unfold threaded; now rewrite BA, AI).
    destruct L as [L1 L2 L3 L4 L5 L6 L7 L8 L9 L10 L11 L12 L13 L14 L15 L16 L17].
    assert (LV : forall x, live s' x <-> live s x).
    { intros x. unfold live. rewrite TH. change (sp_cache s') with (sp_cache s1). rewrite L8. change (sp_cache s0) with (sp_cache s). destruct (in_dec Nat.eq_dec x (sp_arbs s)) as [D|D]; [|tauto]. assert (In x (sp_cache s)) by now apply (i_arbs _ _ I). tauto. }
    assert (E1 : sp_dyn s' = sp_dyn s) by exact L1. assert (E2 : sp_stat s' = sp_stat s) by exact L2. assert (E3 : sp_sleep s' = sp_sleep s) by exact L3. assert (E4 : sp_roused s' = sp_roused s) by exact L4.
    assert (E5 : sp_didx s' = sp_didx s) by exact L5. assert (E6 : sp_sidx s' = sp_sidx s) by exact L6. assert (E8 : sp_cache s' = sp_cache s) by exact L8. assert (E9 : sp_cons s' = sp_cons s) by exact L9.
    assert (E10 : sp_pool s' = sp_pool s) by exact L10. assert (E11 : sp_locked s' = sp_locked s) by exact L11. assert (E13 : sp_nb s' = sp_nb s) by exact L13. assert (E14 : sp_na s' = sp_na s) by exact L14.
    assert (E15 : sp_sb s' = sp_sb s) by exact L15. assert (E16 : sp_s s' = sp_s s) by exact L16. assert (E17 : sp_c s' = sp_c s) by exact L17.
    assert (PR : forall y, present s' y <-> present s y) by (intros y; unfold present; rewrite INB, E15; tauto).
    splits; auto.
    2:{ intros y. destruct (V' y) as (? & ? & ? & ? & ? & ? & ?). splits; auto. }
    constructor; rewrite ?E1, ?E2, ?E3, ?E4, ?E5, ?E6, ?E8, ?E9, ?E10, ?E11, ?E13, ?E14, ?E15, ?E16, ?E17; try solve [apply I].
    + intros y. rewrite INB, K, Rt. apply I.
    + intros y. rewrite INB, K. apply I.
    + intros y. rewrite INB. apply I.
    + rewrite INB, K. apply I.
    + intros y r. rewrite Rt, INB, K. intros Ey. destruct (i_root _ _ I y r Ey) as (X1 & X2 & X3 & l & X4 & X5). splits; auto. exists l. split; auto. eapply chain_ext; eauto.
    + intros r Hr. destruct (i_comp _ _ I r Hr) as (l & X1 & X2 & X3). exists l. splits; auto; [eapply chain_ext; eauto|]. intros y. rewrite Rt. auto.
    + intros y. rewrite Rt, N. apply I.
    + intros y. rewrite K. unfold idle in ID. rewrite ID. apply I.
    + intros z y. rewrite SH. apply I.
    + intros y. rewrite SH. apply I.
    + intros z. rewrite K, Rt. apply I.
    + intros z. rewrite K, Rt. apply I.
    + intros z. rewrite PR. apply I.
    + intros c y. rewrite C. apply I.
    + intros y. rewrite C. apply I.
    + intros c. rewrite !PR. apply I.
    + intros c. rewrite !Rt. apply I.
    + intros c r. rewrite !Rt, !K. apply I.
    + intros z y. rewrite BA, BB, !AI. intros [X Y]. destruct (i_thr _ _ I _ _ X) as (? & ? & ?). splits; auto.
    + intros y. change (arbl s' y) with (arbl s1 y). rewrite R. apply dels_nodup, I.
    + constructor.
    + intros x [].
    + intros x. split; [intros []|]. intros [[] _].
    + intros x [].
    + intros x. rewrite TH, BA, BB, !Rt. intros [X Y]. destruct (i_thr_st _ _ I x X); [tauto|auto].
    + intros x r. rewrite TH, BA, BB, !Rt, !K. intros [X _]. now apply I.
    + intros x. rewrite LV, BA, BB, SA, SB. apply I.
    + intros x y. rewrite !LV. unfold same_shapes. rewrite !SA, !SB. apply I.
    + intros x. rewrite LV. apply I.
Qed.

(** ** Touching pairs *)
Definition hit_pair (h : Hit) x s := pair_eqb (h_a h) (h_b h) (sa_a (sp_a s x)) (sa_b (sp_a s x)) = true.
Record HitOk s h : Prop := {
  g_a : ss_in (sp_s s (h_a h)) = true; g_b : ss_in (sp_s s (h_b h)) = true; g_idx : In (h_a h) (sp_didx s) \/ In (h_b h) (sp_didx s); g_new : ~ live s (h_new h) }.
(** the answers of the callbacks: the new state, whether the arbiter becomes active, the calls *)
Definition answer (st : AState) (h : Hit) (solid : bool) : AState * bool * list Ev :=
  let st := if astate_eqb st ACached then AFirst else st in
  let '(st1, e1) := if astate_eqb st AFirst then ((if h_begin h then AFirst else AIgnore), [EBegin (h_a h) (h_b h) (h_begin h)]) else (st, []) in
  if astate_eqb st1 AIgnore then (AIgnore, false, e1)
  else let e2 := [EPre (h_a h) (h_b h) (h_pre h) (h_ign h)] in
       if h_ign h then (AIgnore, false, e1 ++ e2)
       else if h_pre h && solid then (st1, true, e1 ++ e2) else (ANormal, false, e1 ++ e2).
Definition rejected s h := (Nat.eqb (ss_body (sp_s s (h_a h))) (ss_body (sp_s s (h_b h))) || reject_constraints s (ss_body (sp_s s (h_a h))) (ss_body (sp_s s (h_b h))))%bool.
Definition solid s h := (negb (ss_sensor (sp_s s (h_a h)) || ss_sensor (sp_s s (h_b h))) && (is_dyn s (ss_body (sp_s s (h_a h))) || is_dyn s (ss_body (sp_s s (h_b h)))))%bool.
Definition hit_arb s h := match find_pair s (h_a h) (h_b h) with Some x => x | None => h_new h end.
Definition hit_st s h := match find_pair s (h_a h) (h_b h) with Some x => sa_state (sp_a s x) | None => AFirst end.
Lemma upd_upd {A} (f : nat -> A) x u v : upd (upd f x u) x v = upd f x v.
Proof. extensionality y. rewrite !upd_spec. destruct (Nat.eqb y x); reflexivity. Qed.
Lemma set_a_arbs s f l : set_arbs (set_a s f) l = set_a (set_arbs s l) f. Proof. reflexivity. Qed.
Lemma upd_id {A} (f : nat -> A) x : upd f x (f x) = f.
Proof. extensionality y. rewrite upd_spec. destruct (Nat.eqb_spec y x); subst; reflexivity. Qed.
Lemma a_state_id a : a_state a (sa_state a) = a. Proof. destruct a; reflexivity. Qed.
Definition stage1 x (h : Hit) s : Sp :=
  if astate_eqb (sa_state (sp_a s x)) AFirst then
    let s := emit s (EBegin (h_a h) (h_b h) (h_begin h)) in
    if h_begin h then s else upd_a s x (a_state (sp_a s x) AIgnore)
  else s.
Definition stage2 x (h : Hit) (so : bool) s : Sp :=
  if astate_eqb (sa_state (sp_a s x)) AIgnore then s
  else
    let s := emit s (EPre (h_a h) (h_b h) (h_pre h) (h_ign h)) in
    let s := if h_ign h then upd_a s x (a_state (sp_a s x) AIgnore) else s in
    if h_pre h && negb (h_ign h) && so
    then set_arbs s (sp_arbs s ++ [x])
    else if h_ign h then s else upd_a s x (a_state (sp_a s x) ANormal).
Definition stage3 x s : Sp := upd_a s x (a_stamp (sp_a s x) (sp_stamp s)).
(** every stage has the form: a new state, perhaps one more active arbiter, some calls *)
Definition form s x st (l : list nat) (evs : list Ev) : Sp := set_log (set_arbs (upd_a s x (a_state (sp_a s x) st)) (sp_arbs s ++ l)) (sp_log s ++ evs).
Lemma form_id s x : s = form s x (sa_state (sp_a s x)) [] [].
Proof. unfold form, upd_a. rewrite a_state_id, upd_id, !app_nil_r. destruct s; reflexivity. Qed.
Lemma form_form s x st l e st' l' e' : form (form s x st l e) x st' l' e' = form s x st' (l ++ l') (e ++ e').
Proof. unfold form, upd_a. ss. rewrite upd_same, upd_upd. rewrite !app_assoc. reflexivity. Qed.
Lemma form_emit s x e : emit s e = form s x (sa_state (sp_a s x)) [] [e].
Proof. unfold form, upd_a, emit. rewrite a_state_id, upd_id, app_nil_r. destruct s; reflexivity. Qed.
Lemma form_state s x st : upd_a s x (a_state (sp_a s x) st) = form s x st [] [].
Proof. unfold form. ss. rewrite !app_nil_r. destruct s; reflexivity. Qed.
Lemma form_push s x y : set_arbs s (sp_arbs s ++ [y]) = form s x (sa_state (sp_a s x)) [y] [].
Proof. unfold form, upd_a. ss. rewrite a_state_id, upd_id, app_nil_r. destruct s; reflexivity. Qed.
Lemma form_sa s x st l e : sa_state (sp_a (form s x st l e) x) = st.
Proof. unfold form. ss. rewrite upd_same. reflexivity. Qed.
Lemma stage1_eq x h s : let st := sa_state (sp_a s x) in stage1 x h s = form s x (if astate_eqb st AFirst then (if h_begin h then AFirst else AIgnore) else st) [] (if astate_eqb st AFirst then [EBegin (h_a h) (h_b h) (h_begin h)] else []).
Proof.
  cbv zeta. unfold stage1. destruct (astate_eqb (sa_state (sp_a s x)) AFirst) eqn:E; [|apply form_id]. cbv zeta.
  assert (E' : sa_state (sp_a s x) = AFirst) by (destruct (sa_state (sp_a s x)); try discriminate; reflexivity).
  rewrite (form_emit s x). destruct (h_begin h); [now rewrite E'|]. rewrite form_state, form_form. reflexivity.
Qed.
Lemma stage2_eq x h so s : let st := sa_state (sp_a s x) in stage2 x h so s =
  if astate_eqb st AIgnore then form s x st [] [] else
  form s x (if h_ign h then AIgnore else if h_pre h && so then st else ANormal) (if negb (h_ign h) && (h_pre h && so) then [x] else []) [EPre (h_a h) (h_b h) (h_pre h) (h_ign h)].
Proof.
  cbv zeta. unfold stage2. destruct (astate_eqb (sa_state (sp_a s x)) AIgnore) eqn:E; [apply form_id|]. cbv zeta.
  rewrite (form_emit s x). destruct (h_ign h).
  - rewrite form_state, form_form. rewrite andb_false_r. cbn [negb andb]. reflexivity.
  - rewrite andb_true_r. cbn [negb andb]. destruct (h_pre h && so).
    + rewrite (form_push _ x), form_form, form_sa. reflexivity.
    + rewrite form_state, form_form. reflexivity.
Qed.
Definition hit_tail s x (h : Hit) (so : bool) : Sp := stage3 x (stage2 x h so (stage1 x h s)).
Lemma hit_tail_eq s x h so : sa_state (sp_a s x) <> ACached -> let '(st, act, evs) := answer (sa_state (sp_a s x)) h so in
  hit_tail s x h so = set_log (set_arbs (upd_a s x (a_stamp (a_state (sp_a s x) st) (sp_stamp s))) (if act then sp_arbs s ++ [x] else sp_arbs s)) (sp_log s ++ evs).
Proof.
  intros NC. assert (E3 : forall st l e, stage3 x (form s x st l e) = set_log (set_arbs (upd_a s x (a_stamp (a_state (sp_a s x) st) (sp_stamp s))) (sp_arbs s ++ l)) (sp_log s ++ e)).
  { intros. unfold stage3, form, upd_a. ss. rewrite upd_same, upd_upd. reflexivity. }
  unfold hit_tail. rewrite stage1_eq. cbv zeta. rewrite stage2_eq. cbv zeta. rewrite form_sa, !form_form. unfold answer.
  destruct (sa_state (sp_a s x)), (h_begin h); try congruence; cbn [astate_eqb]; try (rewrite E3, ?app_nil_r; reflexivity);
  destruct (h_ign h); cbn [negb andb app]; try (rewrite E3, ?app_nil_r; reflexivity); destruct (h_pre h && so); rewrite E3; cbn [app]; rewrite ?app_nil_r; reflexivity.
Qed.
Lemma hit_step_eq s h : exists s', hit_step s h = Some s' /\
  if rejected s h then s' = s else
  let x := hit_arb s h in let '(st, act, evs) := answer (hit_st s h) h (solid s h) in
  sp_b s' = sp_b s /\ sp_s s' = sp_s s /\ sp_c s' = sp_c s /\ sp_dyn s' = sp_dyn s /\ sp_stat s' = sp_stat s /\ sp_sleep s' = sp_sleep s /\ sp_roused s' = sp_roused s /\ sp_didx s' = sp_didx s /\ sp_sidx s' = sp_sidx s /\
  sp_cons s' = sp_cons s /\ sp_locked s' = sp_locked s /\ sp_stamp s' = sp_stamp s /\ sp_nb s' = sp_nb s /\ sp_sb s' = sp_sb s /\
  sp_arbs s' = (if act then sp_arbs s ++ [x] else sp_arbs s) /\ sp_log s' = sp_log s ++ evs /\
  (forall y, sp_a s' y = if Nat.eqb y x then mkSA (h_a h) (h_b h) (ss_body (sp_s s (h_a h))) (ss_body (sp_s s (h_b h))) st (sp_stamp s) else sp_a s y) /\
  match find_pair s (h_a h) (h_b h) with
  | Some _ => sp_cache s' = sp_cache s /\ sp_pool s' = sp_pool s /\ sp_na s' = sp_na s
  | None => sp_cache s' = sp_cache s ++ [x] /\ sp_pool s' = del x (sp_pool s) /\ sp_na s' = Nat.max (sp_na s) (S x) end.
Proof.
  unfold hit_step, rejected. destruct (_ || _); [exists s; auto|]. unfold hit_arb, hit_st.
  set (ba := ss_body (sp_s s (h_a h))). set (bb := ss_body (sp_s s (h_b h))).
  set (s1 := match find_pair s (h_a h) (h_b h) with Some x => (x, s) | None => _ end). 
  set (x := match find_pair s (h_a h) (h_b h) with Some x => x | None => h_new h end).
  set (st0 := match find_pair s (h_a h) (h_b h) with Some x => sa_state (sp_a s x) | None => AFirst end).
  assert (X1 : fst s1 = x) by (unfold s1, x; now destruct (find_pair s (h_a h) (h_b h))).
  assert (X2 : sa_state (sp_a (snd s1) x) = st0). { unfold s1, x, st0. destruct (find_pair s (h_a h) (h_b h)); auto. cbn [fst snd]. ss. now rewrite upd_same. }
  assert (X3 : forall y, y <> x -> sp_a (snd s1) y = sp_a s y). { intros y. unfold s1, x. destruct (find_pair s (h_a h) (h_b h)); auto. intros Ny. cbn [fst snd]. ss. now rewrite upd_other. }
  assert (X4 : sp_b (snd s1) = sp_b s /\ sp_s (snd s1) = sp_s s /\ sp_c (snd s1) = sp_c s /\ sp_dyn (snd s1) = sp_dyn s /\ sp_stat (snd s1) = sp_stat s /\ sp_sleep (snd s1) = sp_sleep s /\ sp_roused (snd s1) = sp_roused s /\ sp_didx (snd s1) = sp_didx s /\ sp_sidx (snd s1) = sp_sidx s /\
    sp_cons (snd s1) = sp_cons s /\ sp_locked (snd s1) = sp_locked s /\ sp_stamp (snd s1) = sp_stamp s /\ sp_nb (snd s1) = sp_nb s /\ sp_sb (snd s1) = sp_sb s /\ sp_arbs (snd s1) = sp_arbs s /\ sp_log (snd s1) = sp_log s).
  { unfold s1. destruct (find_pair s (h_a h) (h_b h)); splits; reflexivity. }
  assert (X5 : match find_pair s (h_a h) (h_b h) with
    | Some _ => sp_cache (snd s1) = sp_cache s /\ sp_pool (snd s1) = sp_pool s /\ sp_na (snd s1) = sp_na s
    | None => sp_cache (snd s1) = sp_cache s ++ [x] /\ sp_pool (snd s1) = del x (sp_pool s) /\ sp_na (snd s1) = Nat.max (sp_na s) (S x) end).
  { unfold s1, x. destruct (find_pair s (h_a h) (h_b h)); splits; reflexivity. }
  clearbody s1 x st0. destruct s1 as [x' s1]. cbn [fst snd] in *. subst x'.
  destruct X4 as (Y1 & Y2 & Y3 & Y4 & Y5 & Y6 & Y7 & Y8 & Y9 & Y10 & Y11 & Y12 & Y13 & Y14 & Y15 & Y16).
  set (s2 := upd_a s1 x _). eexists. split; [reflexivity|]. cbv zeta.
  assert (Z1 : sp_a s2 x = mkSA (h_a h) (h_b h) ba bb (if astate_eqb st0 ACached then AFirst else st0) (sa_stamp (sp_a s1 x))). { unfold s2. ss. rewrite upd_same, X2. reflexivity. }
  match goal with |- context [sp_b ?t = sp_b s] => assert (EQ : t = hit_tail s2 x h (solid s h)) end.
  { assert (SO : solid s h = (negb (ss_sensor (sp_s s1 (h_a h)) || ss_sensor (sp_s s1 (h_b h))) && (kind_eqb (sb_kind (sp_b s1 ba)) Dyn || kind_eqb (sb_kind (sp_b s1 bb)) Dyn))%bool) by (rewrite Y1, Y2; reflexivity).
    rewrite SO. unfold hit_tail, stage1, stage2, stage3, is_dyn, kind. cbv zeta.
    destruct (astate_eqb (sa_state (sp_a s2 x)) AFirst), (h_begin h), (h_ign h); rewrite <- !andb_assoc; reflexivity. }
  rewrite EQ. clear EQ. generalize (hit_tail_eq s2 x h (solid s h)). rewrite Z1. ss.
  assert (AE : answer st0 h (solid s h) = answer (if astate_eqb st0 ACached then AFirst else st0) h (solid s h)) by (destruct st0; reflexivity). rewrite AE.
  destruct (answer (if astate_eqb st0 ACached then AFirst else st0) h (solid s h)) as [[st act] evs]. intros EQ. rewrite EQ by (destruct st0; discriminate). clear EQ. clearbody ba bb. unfold s2. ss.
  rewrite ?Y15, ?Y16. splits; auto. intros y. rewrite Y12. rewrite !upd_spec. destruct (Nat.eqb_spec y x) as [->|]; auto.
Qed.

Lemma hit_ok s h : Core s (sp_arbs s) -> HitOk s h -> (forall x, In x (sp_arbs s) -> ~ hit_pair h x s) -> exists s', hit_step s h = Some s' /\ Core s' (sp_arbs s') /\
  if rejected s h then s' = s else
  let x := hit_arb s h in let '(st, act, evs) := answer (hit_st s h) h (solid s h) in
  sp_b s' = sp_b s /\ sp_s s' = sp_s s /\ sp_c s' = sp_c s /\ sp_didx s' = sp_didx s /\ sp_stamp s' = sp_stamp s /\ sp_sb s' = sp_sb s /\ sp_dyn s' = sp_dyn s /\ sp_sleep s' = sp_sleep s /\ sp_cons s' = sp_cons s /\
  sp_arbs s' = (if act then sp_arbs s ++ [x] else sp_arbs s) /\ sp_log s' = sp_log s ++ evs /\
  (forall y, sp_a s' y = if Nat.eqb y x then mkSA (h_a h) (h_b h) (ss_body (sp_s s (h_a h))) (ss_body (sp_s s (h_b h))) st (sp_stamp s) else sp_a s y) /\
  (forall y, live s' y <-> live s y \/ y = x) /\ (forall y, threaded s' y <-> threaded s y) /\ ~ threaded s x /\ In x (sp_cache s') /\ ~ In x (sp_arbs s) /\
  (live s x -> hit_pair h x s /\ hit_st s h = sa_state (sp_a s x)) /\ (~ live s x -> hit_st s h = AFirst) /\ (forall y, live s y -> hit_pair h y s -> y = x) /\ incl (sp_cache s) (sp_cache s').
Proof.
  intros I HO HD. destruct (hit_step_eq s h) as (s' & E & D). exists s'. split; auto. clear E.
  destruct (rejected s h) eqn:RJ; [subst s'; auto|]. cbv zeta in D |- *. destruct (answer (hit_st s h) h (solid s h)) as [[st act] evs] eqn:EA.
  destruct D as (E1 & E2 & E3 & E4 & E5 & E6 & E7 & E8 & E9 & E10 & E11 & E12 & E13 & E14 & Ab & Lg & AA & FP).
  set (x := hit_arb s h) in *. set (pa := ss_body (sp_s s (h_a h))) in *. set (pb := ss_body (sp_s s (h_b h))) in *.
  assert (NB : pa <> pb). { unfold rejected in RJ. apply orb_false_iff in RJ as [RJ _]. now apply Nat.eqb_neq in RJ. }
  assert (IM : forall y, In y (sp_arbs s) -> In y (sp_cache s) /\ ~ threaded s y). { intros y Hy. split; [now apply (i_arbs _ _ I)|]. now apply (i_pend _ _ I) in Hy. }
  assert (TC : forall y, threaded s y -> ~ In y (sp_cache s)). { intros y Ty Cy. destruct (i_thr_st _ _ I y Ty) as [X|[X _]]; auto. now apply IM in X. }
  assert (FX : (live s x /\ In x (sp_cache s) /\ hit_pair h x s /\ hit_st s h = sa_state (sp_a s x) /\ sp_cache s' = sp_cache s /\ sp_pool s' = sp_pool s /\ sp_na s' = sp_na s) \/
    (~ live s x /\ hit_st s h = AFirst /\ (forall y, In y (sp_cache s) -> ~ hit_pair h y s) /\ sp_cache s' = sp_cache s ++ [x] /\ sp_pool s' = del x (sp_pool s) /\ sp_na s' = Nat.max (sp_na s) (S x))).
  { unfold x, hit_arb, hit_st in *. destruct (find_pair s (h_a h) (h_b h)) as [z|] eqn:F.
    - left. unfold find_pair in F. apply find_some in F as [F1 F2]. destruct FP as (? & ? & ?). splits; auto. left; auto.
    - right. destruct FP as (? & ? & ?). splits; auto; [apply HO|]. intros y Hy. unfold find_pair in F. apply (find_none _ _ F) in Hy. unfold hit_pair. congruence. }
  clear FP.
  assert (NT : forall b, ~ In x (arbl s b)).
  { intros b Hb. assert (Tx : threaded s x) by (unfold threaded; now apply (i_thr _ _ I _ _ Hb)). destruct FX as [(_ & C & _)|(L & _)]; [exact (TC x Tx C)|apply L; right; auto]. }
  assert (NAr : ~ In x (sp_arbs s)). { intros D. destruct FX as [(_ & _ & P & _)|(L & _)]; [exact (HD x D P)|]. apply L. left. now apply IM. }
  assert (Kv : forall y, kind s' y = kind s y) by (intros; unfold kind; now rewrite E1). assert (Rv : forall y, root s' y = root s y) by (intros; unfold root; now rewrite E1).
  assert (Nv : forall y, next s' y = next s y) by (intros; unfold next; now rewrite E1). assert (Av : forall y, arbl s' y = arbl s y) by (intros; unfold arbl; now rewrite E1).
  assert (Cv : forall y, conl s' y = conl s y) by (intros; unfold conl; now rewrite E1). assert (Sv : forall y, shl s' y = shl s y) by (intros; unfold shl; now rewrite E1).
  assert (Iv : forall y, inb s' y <-> inb s y) by (intros; unfold inb; now rewrite E1). assert (Pv : forall y, present s' y <-> present s y) by (intros; unfold present; now rewrite Iv, E14).
  assert (AO : forall y, y <> x -> sp_a s' y = sp_a s y). { intros y Ny. rewrite AA. destruct (Nat.eqb_spec y x); [congruence|auto]. }
  assert (AX : sp_a s' x = mkSA (h_a h) (h_b h) pa pb st (sp_stamp s)) by (rewrite AA, Nat.eqb_refl; auto).
  assert (BO : forall y, y <> x -> ba s' y = ba s y /\ bb s' y = bb s y) by (intros y Ny; unfold ba, bb; rewrite AO; auto).
  assert (TO : forall y, threaded s' y <-> threaded s y).
  { intros y. unfold threaded. rewrite Av. destruct (Nat.eq_dec y x) as [->|Ny]; [split; intros D; destruct (NT _ D)|]. destruct (BO y Ny) as [-> _]. tauto. }
  assert (CO : forall y, In y (sp_cache s') <-> In y (sp_cache s) \/ y = x). { intros y. destruct FX as [(_ & C & _ & _ & -> & _)|(_ & _ & _ & -> & _)]; [|apply In_snoc]. split; auto. intros [?| ->]; auto. }
  assert (LO : forall y, live s' y <-> live s y \/ y = x) by (intros y; unfold live; rewrite TO, CO; tauto).
  assert (UQ : forall y, live s y -> hit_pair h y s -> y = x).
  { intros y Ly Py. destruct FX as [(L & _ & P & _)|(L & _ & P & _)].
    - apply (i_uniq _ _ I y x Ly L). unfold same_shapes, hit_pair in *. rewrite pair_eqb_iff in *. destruct Py as [[Q1 Q2]|[Q1 Q2]], P as [[Q3 Q4]|[Q3 Q4]]; first [left; split; congruence|right; split; congruence].
    - exfalso. destruct Ly as [Cy|Ty]; [exact (P y Cy Py)|]. destruct (i_thr_st _ _ I y Ty) as [X|[_ X]]; [now apply IM in X|].
      destruct (i_live _ _ I y (or_intror Ty)) as (Y1 & Y2 & Y3 & Y4 & _).
      assert (BB : (ba s y = pa /\ bb s y = pb) \/ (ba s y = pb /\ bb s y = pa)). { rewrite Y3, Y4. unfold hit_pair in Py. rewrite pair_eqb_iff in Py. unfold pa, pb. destruct Py as [[Q1 Q2]|[Q1 Q2]]; rewrite Q1, Q2; auto. }
      assert (AW : forall p q, (kind s p <> Stat /\ root s p = None) -> (forall r, root s p = Some r -> kind s q = Stat \/ root s q = Some r) -> (forall r, root s q = Some r -> kind s p = Stat \/ root s p = Some r) -> root s p <> None \/ root s q <> None -> False).
      { intros p q [A1 A2] _ A4 [A5|A5]; [congruence|]. destruct (root s q) as [r|] eqn:Eq; [|congruence]. destruct (A4 r eq_refl); congruence. }
      assert (TCL := fun r => i_thr_cl _ _ I y r Ty).
      assert (DX : (kind s pa <> Stat /\ root s pa = None) \/ (kind s pb <> Stat /\ root s pb = None)). { destruct (g_idx _ _ HO) as [G|G]; apply (i_didx _ _ I) in G; [left|right]; tauto. }
      assert (X' : root s pa <> None \/ root s pb <> None) by (destruct BB as [[B1 B2]|[B1 B2]]; rewrite B1, B2 in X; tauto).
      assert (C1 : forall r, root s pa = Some r -> kind s pb = Stat \/ root s pb = Some r) by (intros r; destruct (TCL r); destruct BB as [[B1 B2]|[B1 B2]]; rewrite B1, B2 in *; auto).
      assert (C2 : forall r, root s pb = Some r -> kind s pa = Stat \/ root s pa = Some r) by (intros r; destruct (TCL r); destruct BB as [[B1 B2]|[B1 B2]]; rewrite B1, B2 in *; auto).
      destruct DX as [DX|DX]; [apply (AW pa pb)|apply (AW pb pa)]; auto. tauto. }
  assert (SS : forall y z, live s y -> live s z -> y <> x -> z <> x -> same_shapes s' y z -> same_shapes s y z) by (intros y z _ _ Ny Nz; unfold same_shapes; rewrite !AO; auto).
  assert (HS : forall y, same_shapes s' x y -> y <> x -> hit_pair h y s) by (intros y S Ny; unfold same_shapes, hit_pair in *; rewrite AX, AO in S; auto).
  assert (ABI : forall y, In y (sp_arbs s') -> In y (sp_arbs s) \/ y = x). { intros y. rewrite Ab. destruct act; auto. rewrite In_snoc. auto. }
  assert (G1 : live s x -> hit_pair h x s /\ hit_st s h = sa_state (sp_a s x)) by (destruct FX as [FX|FX]; tauto).
  assert (G2 : ~ live s x -> hit_st s h = AFirst) by (destruct FX as [FX|FX]; tauto).
  assert (G3 : incl (sp_cache s) (sp_cache s')) by (intros y Hy; apply CO; auto). assert (G4 : In x (sp_cache s')) by (apply CO; auto). assert (G5 : ~ threaded s x) by apply NT.
  split; [|splits; auto].
  constructor; rewrite ?E2, ?E3, ?E4, ?E5, ?E6, ?E7, ?E8, ?E9, ?E10, ?E11, ?E12, ?E13, ?E14; try solve [apply I].
  - intros y. rewrite Iv, Kv, Rv. apply I.
  - intros y. rewrite Iv, Kv. apply I.
  - intros y. rewrite Iv. apply I.
  - rewrite Iv, Kv. apply I.
  - intros y r. rewrite Rv, Iv, Kv. intros Ey. destruct (i_root _ _ I y r Ey) as (X1 & X2 & X3 & l & X4 & X5). splits; auto. exists l. split; auto. eapply chain_ext; eauto.
  - intros r Hr. destruct (i_comp _ _ I r Hr) as (l & X1 & X2 & X3). exists l. splits; auto; [eapply chain_ext; eauto|]. intros y. rewrite Rv. auto.
  - intros y. rewrite Rv, Nv. apply I.
  - intros y. rewrite Kv, E1. apply I.
  - intros z y. rewrite Sv. apply I.
  - intros y. rewrite Sv. apply I.
  - intros z. rewrite Kv, Rv. apply I.
  - intros z. rewrite Kv, Rv. apply I.
  - intros z. rewrite Pv. apply I.
  - intros c y. rewrite Cv. apply I.
  - intros y. rewrite Cv. apply I.
  - intros c. rewrite !Pv. apply I.
  - intros c. rewrite !Rv. apply I.
  - intros c r. rewrite !Rv, !Kv. apply I.
  - intros z y Hz. rewrite Av in Hz. rewrite !Av. assert (Nz : z <> x) by (intros ->; destruct (NT _ Hz)). destruct (BO z Nz) as [-> ->]. now apply I.
  - intros y. rewrite Av. apply I.
  - rewrite Ab. destruct act; [|apply I]. apply NoDup_snoc; [apply I|auto].
  - intros y Hy. apply ABI in Hy as [Hy| ->].
    + destruct (i_arbs _ _ I y Hy) as [Q1 Q2]. rewrite AO by congruence. split; [apply CO; auto|auto].
    + rewrite AX. split; [apply CO; auto|auto].
  - intros y. rewrite TO. split; [|tauto]. intros Hy. split; auto. apply ABI in Hy as [Hy| ->]; [now apply IM|]. intros D. exact (NT _ D).
  - intros y Hy Ty. exfalso. rewrite TO in Ty. apply ABI in Hy as [Hy| ->]; [now apply IM in Hy|exact (NT _ Ty)].
  - intros y. rewrite TO. intros Ty. assert (Ny : y <> x) by (intros ->; exact (NT _ Ty)). destruct (BO y Ny) as [-> ->]. rewrite !Rv. destruct (i_thr_st _ _ I y Ty) as [X|[X Y]]; [now apply IM in X|]. right. split; auto. rewrite CO. tauto.
  - intros y r. rewrite TO. intros Ty. assert (Ny : y <> x) by (intros ->; exact (NT _ Ty)). destruct (BO y Ny) as [-> ->]. rewrite !Rv, !Kv. now apply I.
  - destruct FX as [(_ & C & _ & _ & -> & _)|(L & _ & _ & -> & _)]; [apply I|]. apply NoDup_snoc; [apply I|]. intros D. apply L. left; auto.
  - intros y Ly. destruct (Nat.eq_dec y x) as [->|Ny].
    + unfold ba, bb. rewrite AX. cbn [sa_a sa_b sa_ba sa_bb]. splits; auto; apply HO.
    + apply LO in Ly as [Ly|Ly]; [|congruence]. destruct (BO y Ny) as [-> ->]. rewrite AO by auto. now apply I.
  - intros y z Ly Lz S. apply LO in Ly, Lz. destruct (Nat.eq_dec y x) as [->|Ny], (Nat.eq_dec z x) as [->|Nz]; auto.
    + symmetry. apply UQ; [tauto|]. auto.
    + apply UQ; [tauto|]. apply HS; auto. unfold same_shapes in *. now rewrite pair_eqb_sym.
    + destruct Ly as [Ly|?], Lz as [Lz|?]; try congruence. apply (i_uniq _ _ I); auto.
  - destruct FX as [(_ & _ & _ & _ & _ & -> & _)|(_ & _ & _ & _ & -> & _)]; [apply I|apply del_nodup, I].
  - intros y Hy. rewrite LO. destruct FX as [(L & _ & _ & _ & _ & P1 & P2)|(L & _ & _ & _ & P1 & P2)]; rewrite P1, P2 in Hy.
    + intros [Q| ->]; [apply (i_pool _ _ I y); auto|apply (i_pool _ _ I x); auto].
    + intros [Q| ->].
      * apply (i_pool _ _ I y); auto. destruct Hy as [Hy|Hy]; [left; now apply del_incl in Hy|right; lia].
      * destruct Hy as [Hy|Hy]; [apply del_In in Hy; [tauto|apply I]|lia].
Qed.

(** all touching pairs *)
Definition distinct_pairs (hs : list Hit) := ForallOrdPairs (fun h h' => pair_eqb (h_a h) (h_b h) (h_a h') (h_b h') = false) hs.
End Step.
