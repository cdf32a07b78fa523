(** Putting a component to sleep keeps the invariant. *)
From Coq Require Import List Arith NArith Bool Lia Permutation FunctionalExtensionality.
From Verif.Model Require Import HashSet Space.
From Verif.Proofs Require Import Util SpaceLib SpaceInv SpaceAct SpaceOps SpaceOps2.
Import ListNotations.

Definition sdels (r l : list nat) : list nat := fold_left (fun acc x => swap_del x acc) r l.
Lemma sdels_nodup r : forall l, NoDup l -> NoDup (sdels r l).
Proof. induction r as [|x r IH]; cbn; auto. intros l H. apply IH. now apply swap_del_nodup. Qed.
Lemma sdels_In y r : forall l, NoDup l -> (In y (sdels r l) <-> In y l /\ ~ In y r).
Proof.
  induction r as [|x r IH]; cbn [sdels fold_left]; intros l H; [cbn; tauto|]. fold (sdels r (swap_del x l)). rewrite IH by now apply swap_del_nodup. rewrite (swap_del_In x y l H). cbn.
  split; [intros [[A B] C]; split; auto; intros [D|D]; congruence|intros [A B]; split; [split; auto|]; auto].
Qed.
Lemma sdels_app r r' l : sdels (r ++ r') l = sdels r' (sdels r l).
Proof. unfold sdels. now rewrite fold_left_app. Qed.

Section Sleep.
Context {T : Type} `{Time T}.
Notation Sp := (Space T).
Implicit Types (s : Sp) (b x c r : nat).

Lemma each_drop_arb b l : forall s, NoDup l -> NoDup (sp_cache s) -> NoDup (sp_arbs s) -> (forall x, In x l -> own s b x = true -> In x (sp_arbs s) /\ In x (sp_cache s)) ->
  (forall x y, In x (sp_cache s) -> In y (sp_cache s) -> same_shapes s x y -> x = y) ->
  each (drop_arb b) s l = Some (set_arbs (set_cache s (dels (filter (own s b) l) (sp_cache s))) (sdels (filter (own s b) l) (sp_arbs s))).
Proof.
  induction l as [|x l IH]; intros s ND NC NA H1 H2; cbn [each filter].
  - destruct s; reflexivity.
  - apply NoDup_cons_iff in ND as [N1 N2]. unfold drop_arb at 1. change (Nat.eqb b (sa_ba (sp_a s x)) || is_stat s (sa_ba (sp_a s x))) with (own s b x). destruct (own s b x) eqn:O.
    + unfold uncache. destruct (H1 x (or_introl eq_refl) O) as [X1 X2].
      assert (F : find_pair s (sa_a (sp_a s x)) (sa_b (sp_a s x)) = Some x).
      { unfold find_pair. destruct (find _ _) as [y|] eqn:E.
        - apply find_some in E as [E1 E2]. f_equal. symmetry. apply H2; auto.
        - apply (find_none _ _ E) in X2. rewrite pair_eqb_refl in X2. discriminate. }
      rewrite F. change (sp_arbs (set_cache s (del x (sp_cache s)))) with (sp_arbs s). apply memb_In in X1. rewrite X1. rewrite IH; ss; auto.
      * now apply del_nodup.
      * now apply swap_del_nodup.
      * intros y Hy Oy. destruct (H1 y (or_intror Hy) Oy) as [Y1 Y2]. assert (y <> x) by congruence. split; [apply swap_del_In|apply del_In]; auto.
      * intros y z Hy Hz. apply del_incl in Hy, Hz. now apply H2.
    + apply IH; auto. intros y Hy. apply H1. cbn; auto.
Qed.
Lemma each_drop_con b l : forall s, each (drop_con b) s l = Some (set_cons s (dels (filter (ownc s b) l) (sp_cons s))).
Proof.
  induction l as [|c l IH]; intros s; cbn [each filter]; [destruct s; reflexivity|].
  unfold drop_con at 1. fold (ownc s b c). destruct (ownc s b c) eqn:O; [|apply IH]. rewrite IH. reflexivity.
Qed.
(** the lists of the space after the bodies [l] are put to sleep *)
Definition put s (l : list nat) : Sp :=
  set_cons (set_arbs (set_cache (set_sidx (set_didx (set_dyn s (dels l (sp_dyn s))) (dels (flat_map (shl s) l) (sp_didx s))) (sp_sidx s ++ flat_map (shl s) l))
    (dels (flat_map (owned s) l) (sp_cache s))) (sdels (flat_map (owned s) l) (sp_arbs s))) (dels (flat_map (ownedc s) l) (sp_cons s)).
Lemma deact_one s b : NoDup (shl s b) -> NoDup (sp_didx s) -> (forall x, In x (shl s b) -> In x (sp_didx s) /\ ~ In x (sp_sidx s)) ->
  NoDup (arbl s b) -> NoDup (sp_cache s) -> NoDup (sp_arbs s) -> (forall x, In x (owned s b) -> In x (sp_arbs s) /\ In x (sp_cache s)) ->
  (forall x y, In x (sp_cache s) -> In y (sp_cache s) -> same_shapes s x y -> x = y) -> deactivate s b = Some (put s [b]).
Proof.
  intros N1 N2 H1 N3 N4 N5 H2 H3. unfold deactivate. set (s1 := set_dyn s _). change (sb_shapes (bod s1 b)) with (shl s b). rewrite each_move_in by auto.
  set (s2 := set_sidx _ _). change (sb_arbs (bod s2 b)) with (arbl s b). rewrite each_drop_arb; auto.
  2:{ intros x Hx Ox. apply H2. apply filter_In. split; auto. }
  set (s3 := set_arbs _ _). change (sb_cons (bod s3 b)) with (conl s b). rewrite each_drop_con. f_equal.
  unfold put. cbn [flat_map]. rewrite !app_nil_r. reflexivity.
Qed.
Lemma put_cons s b l : put (put s [b]) l = put s (b :: l).
Proof.
  unfold put at 1 3. change (sp_dyn (put s [b])) with (del b (sp_dyn s)). cbn [flat_map dels fold_left].
  change (flat_map (shl (put s [b])) l) with (flat_map (shl s) l). change (flat_map (owned (put s [b])) l) with (flat_map (owned s) l). change (flat_map (ownedc (put s [b])) l) with (flat_map (ownedc s) l).
  rewrite !dels_app, sdels_app. unfold put; ss. cbn [flat_map]. rewrite !app_nil_r, <- app_assoc. reflexivity.
Qed.
Lemma deact_all : forall l s, NoDup (sp_didx s) -> NoDup (flat_map (shl s) l) -> (forall x, In x (flat_map (shl s) l) -> In x (sp_didx s) /\ ~ In x (sp_sidx s)) ->
  (forall b, In b l -> NoDup (arbl s b)) -> NoDup (sp_cache s) -> NoDup (sp_arbs s) -> NoDup (flat_map (owned s) l) -> (forall x, In x (flat_map (owned s) l) -> In x (sp_arbs s) /\ In x (sp_cache s)) ->
  (forall x y, In x (sp_cache s) -> In y (sp_cache s) -> same_shapes s x y -> x = y) -> each deactivate s l = Some (put s l).
Proof.
  induction l as [|b l IH]; intros s N1 N2 H1 N3 N4 N5 N6 H2 H3; cbn [each].
  - unfold put. cbn. rewrite app_nil_r. destruct s; reflexivity.
  - cbn [flat_map] in *. apply nodup_app in N2 as (N2a & N2b & N2c). apply nodup_app in N6 as (N6a & N6b & N6c).
    rewrite deact_one; auto; try (intros x Hx; first [apply H1|apply H2]; apply in_app_iff; auto); [|apply N3; cbn; auto].
    rewrite <- (put_cons s b l). assert (DS : dels (flat_map (shl s) [b]) (sp_didx s) = dels (shl s b) (sp_didx s)) by (cbn [flat_map]; now rewrite app_nil_r).
    assert (DO : flat_map (owned s) [b] = owned s b) by (cbn [flat_map]; now rewrite app_nil_r).
    apply IH; change (shl (put s [b])) with (shl s); change (arbl (put s [b])) with (arbl s); change (owned (put s [b])) with (owned s); auto.
    + apply dels_nodup; auto.
    + intros x Hx. destruct (H1 x) as [A B]; [apply in_app_iff; auto|]. unfold put; ss. rewrite DS. cbn [flat_map]. rewrite app_nil_r, in_app_iff. split.
      * apply dels_In; auto. split; auto. intros D. exact (N2c x D Hx).
      * intros [D|D]; auto. exact (N2c x D Hx).
    + intros y Hy. apply N3. cbn; auto.
    + apply dels_nodup; auto.
    + apply sdels_nodup; auto.
    + intros x Hx. destruct (H2 x) as [A B]; [apply in_app_iff; auto|]. unfold put; ss. rewrite DO. split; [apply sdels_In|apply dels_In]; auto; split; auto; intros D; exact (N6c x D Hx).
    + intros x y. unfold put; ss. rewrite DO. rewrite !dels_In by auto. intros [A _] [B _]. now apply H3.
Qed.

(** a component: dynamic bodies, awake, whose neighbours are static or in it *)
Record Closed s (l : list nat) : Prop := {
  cl_nd : NoDup l; cl_in : forall b, In b l -> In b (sp_dyn s) /\ kind s b = Dyn;
  cl_thr : forall x, threaded s x -> (In (ba s x) l -> kind s (bb s x) = Stat \/ In (bb s x) l) /\ (In (bb s x) l -> kind s (ba s x) = Stat \/ In (ba s x) l);
  cl_con : forall c, sc_in (sp_c s c) = true -> (In (sc_a (sp_c s c)) l -> kind s (sc_b (sp_c s c)) = Stat \/ In (sc_b (sp_c s c)) l) /\ (In (sc_b (sp_c s c)) l -> kind s (sc_a (sp_c s c)) = Stat \/ In (sc_a (sp_c s c)) l) }.
Lemma asleep s l : Core s [] -> Closed s l ->
  (forall x, In x (flat_map (owned s) l) <-> threaded s x /\ (In (ba s x) l \/ In (bb s x) l)) /\
  (forall c, In c (flat_map (ownedc s) l) <-> sc_in (sp_c s c) = true /\ (In (sc_a (sp_c s c)) l \/ In (sc_b (sp_c s c)) l)) /\
  (forall x, In x (flat_map (shl s) l) <-> ss_in (sp_s s x) = true /\ In (ss_body (sp_s s x)) l) /\
  NoDup (flat_map (owned s) l) /\ NoDup (flat_map (shl s) l) /\ (forall x, In x (flat_map (owned s) l) -> In x (sp_arbs s) /\ In x (sp_cache s)) /\
  (forall x, In x (flat_map (shl s) l) -> In x (sp_didx s) /\ ~ In x (sp_sidx s)).
Proof.
  intros I [KN KI CT CC].
  assert (NS : forall y, In y l -> kind s y <> Stat). { intros y Hy. destruct (KI y Hy) as [_ ->]. discriminate. }
  assert (RT : forall y, In y l -> root s y = None). { intros y Hy. destruct (KI y Hy) as [D _]. apply (i_dyn _ _ I) in D. tauto. }
  assert (OW : forall x, In x (flat_map (owned s) l) <-> threaded s x /\ (In (ba s x) l \/ In (bb s x) l)).
  { intros x. rewrite in_flat_map. split.
    - intros (b & Hb & Hx). apply filter_In in Hx as [Hx _]. destruct (i_thr _ _ I _ _ Hx) as (E & T1 & T2). split; auto. destruct E as [<-|<-]; auto.
    - intros [Tx E]. destruct (i_thr _ _ I _ _ Tx) as (_ & T1 & T2).
      assert (EA : In (ba s x) l -> exists b, In b l /\ In x (owned s b)). { intros E'. exists (ba s x). split; auto. apply filter_In. split; auto. now rewrite Nat.eqb_refl. }
      destruct E as [E|E]; auto. destruct (CT x Tx) as [_ CL]. destruct (CL E) as [CL'|CL']; auto.
      exists (bb s x). split; auto. apply filter_In. split; auto. unfold is_stat. rewrite CL'. apply orb_true_r. }
  assert (OC : forall c, In c (flat_map (ownedc s) l) <-> sc_in (sp_c s c) = true /\ (In (sc_a (sp_c s c)) l \/ In (sc_b (sp_c s c)) l)).
  { intros c. rewrite in_flat_map. split.
    - intros (b & Hb & Hx). apply filter_In in Hx as [Hx _]. apply (i_con _ _ I) in Hx as [X [<-|<-]]; auto.
    - intros [X E]. assert (C1 : In c (conl s (sc_a (sp_c s c)))) by (apply (i_con _ _ I); auto). assert (C2 : In c (conl s (sc_b (sp_c s c)))) by (apply (i_con _ _ I); auto).
      assert (EA : In (sc_a (sp_c s c)) l -> exists b, In b l /\ In c (ownedc s b)). { intros E'. eexists. split; [exact E'|]. apply filter_In. split; auto. now rewrite Nat.eqb_refl. }
      destruct E as [E|E]; auto. destruct (CC c X) as [_ CL]. destruct (CL E) as [CL'|CL']; auto.
      eexists. split; [exact E|]. apply filter_In. split; auto. unfold is_stat. rewrite CL'. apply orb_true_r. }
  assert (OS : forall x, In x (flat_map (shl s) l) <-> ss_in (sp_s s x) = true /\ In (ss_body (sp_s s x)) l).
  { intros x. rewrite in_flat_map. split.
    - intros (b & Hb & Hx). apply (i_shp _ _ I) in Hx as [X <-]. auto.
    - intros [X Y]. eexists. split; [exact Y|]. apply (i_shp _ _ I). auto. }
  splits; auto.
  - apply flat_map_nodup; auto; [intros b _; apply NoDup_filter, I|].
    intros b b' x Hb Hb' X X'. apply filter_In in X as [X X2]. apply filter_In in X' as [X' X2'].
    apply orb_true_iff in X2, X2'. rewrite Nat.eqb_eq in X2, X2'. unfold is_stat in *. rewrite kind_eqb_eq in X2, X2'.
    destruct (i_thr _ _ I _ _ X) as ([E|E] & _ & _), (i_thr _ _ I _ _ X') as ([E'|E'] & _ & _); try congruence.
    + destruct X2' as [X2'|X2']; [congruence|]. rewrite <- E in X2'. destruct (NS _ Hb X2').
    + destruct X2 as [X2|X2]; [congruence|]. rewrite <- E' in X2. destruct (NS _ Hb' X2).
  - apply flat_map_nodup; auto; [intros b _; apply I|]. intros b b' x _ _ X X'. apply (i_shp _ _ I) in X, X'. destruct X, X'. congruence.
  - intros x Hx. apply OW in Hx as [Tx E]. assert (X : In x (sp_arbs s)).
    { destruct (i_thr_st _ _ I x Tx) as [X|[_ X]]; auto. exfalso. destruct (i_thr_cl _ _ I x) with (r := match root s (ba s x) with Some r => r | None => match root s (bb s x) with Some r => r | None => 0 end end) as [C1 C2]; auto.
      destruct (root s (ba s x)) as [r|] eqn:R1.
      - destruct E as [E|E]; [rewrite (RT _ E) in R1; discriminate|]. destruct (C1 eq_refl) as [Q|Q]; [exact (NS _ E Q)|rewrite (RT _ E) in Q; discriminate].
      - destruct (root s (bb s x)) as [r|] eqn:R2; [|tauto]. destruct E as [E|E]; [|rewrite (RT _ E) in R2; discriminate]. destruct (C2 eq_refl) as [Q|Q]; [exact (NS _ E Q)|discriminate]. }
    split; auto. now apply (i_arbs _ _ I).
  - intros x Hx. apply OS in Hx as [X Y]. split; [apply (i_didx _ _ I); auto|]. rewrite (i_sidx _ _ I). intros [_ [Z|Z]]; [exact (NS _ Y Z)|rewrite (RT _ Y) in Z; auto].
Qed.

(** [s']: [s] with the component [l] asleep under its root [r] *)
Lemma slept_core s s' r t : let l := r :: t in Core s [] -> Closed s l ->
  (forall y, kind s' y = kind s y /\ arbl s' y = arbl s y /\ conl s' y = conl s y /\ shl s' y = shl s y /\ sb_in (sp_b s' y) = sb_in (sp_b s y) /\ idle s' y = idle s y) ->
  (forall y, In y l -> root s' y = Some r) -> (forall y, ~ In y l -> root s' y = root s y /\ next s' y = next s y) -> chain s' (Some r) l ->
  (sp_a s' = sp_a s /\ sp_s s' = sp_s s /\ sp_c s' = sp_c s /\ sp_stat s' = sp_stat s /\ sp_roused s' = sp_roused s /\ sp_pool s' = sp_pool s /\ sp_locked s' = sp_locked s /\ sp_stamp s' = sp_stamp s /\ sp_nb s' = sp_nb s /\ sp_na s' = sp_na s /\ sp_sb s' = sp_sb s) ->
  sp_dyn s' = dels l (sp_dyn s) -> sp_didx s' = dels (flat_map (shl s) l) (sp_didx s) -> sp_sidx s' = sp_sidx s ++ flat_map (shl s) l ->
  sp_cache s' = dels (flat_map (owned s) l) (sp_cache s) -> sp_arbs s' = sdels (flat_map (owned s) l) (sp_arbs s) -> sp_cons s' = dels (flat_map (ownedc s) l) (sp_cons s) -> sp_sleep s' = sp_sleep s ++ [r] ->
  Core s' [] /\ (forall x, live s' x <-> live s x) /\ (forall x, In x (sp_arbs s') \/ threaded s' x <-> In x (sp_arbs s) \/ threaded s x).
Proof.
  intros l I CL V RL RO CH (Ea & Es & Ec & Est & Ero & Epo & Elo & Esp & Enb & Ena & Esb) Dy Di Si Ca Ab Co Sl.
  destruct (asleep s l I CL) as (OW & OC & OS & N1 & N2 & OWA & OSI). destruct CL as [KN KI CT CC].
  assert (K : forall y, kind s' y = kind s y) by apply V. assert (A : forall y, arbl s' y = arbl s y) by apply V. assert (C : forall y, conl s' y = conl s y) by apply V.
  assert (SH : forall y, shl s' y = shl s y) by apply V. assert (IN : forall y, sb_in (sp_b s' y) = sb_in (sp_b s y)) by apply V. assert (ID : forall y, idle s' y = idle s y) by apply V. clear V.
  assert (INB : forall y, inb s' y <-> inb s y) by (intros y; unfold inb; now rewrite IN).
  assert (BA : forall x, ba s' x = ba s x) by (intros x; unfold ba; now rewrite Ea). assert (BB : forall x, bb s' x = bb s x) by (intros x; unfold bb; now rewrite Ea).
  assert (TH : forall x, threaded s' x <-> threaded s x) by (intros x; unfold threaded; now rewrite A, BA).
  assert (PR : forall y, present s' y <-> present s y) by (intros y; unfold present; rewrite INB, Esb; tauto).
  assert (RT : forall y, In y l -> root s y = None). { intros y Hy. destruct (KI y Hy) as [D _]. apply (i_dyn _ _ I) in D. tauto. }
  assert (LIN : forall y, In y l -> inb s y). { intros y Hy. destruct (KI y Hy) as [D _]. apply (i_dyn _ _ I) in D. tauto. }
  assert (NS : forall y, In y l -> kind s y <> Stat). { intros y Hy. destruct (KI y Hy) as [_ ->]. discriminate. }
  assert (RN : forall y, root s' y = None <-> root s y = None /\ ~ In y l). { intros y. destruct (in_dec Nat.eq_dec y l) as [D|D]; [rewrite (RL y D); split; [discriminate|tauto]|]. destruct (RO y D) as [-> _]. tauto. }
  assert (RS : forall y q, root s' y = Some q <-> root s y = Some q \/ (In y l /\ q = r)).
  { intros y q. destruct (in_dec Nat.eq_dec y l) as [D|D]; [rewrite (RL y D), (RT y D); split; [intros [= <-]; auto|intros [|[_ ->]]; auto; discriminate]|]. destruct (RO y D) as [-> _]. tauto. }
  assert (LV : forall x, live s' x <-> live s x).
  { intros x. unfold live. rewrite TH, Ca, dels_In by apply I. rewrite OW. destruct (in_dec Nat.eq_dec x (arbl s (ba s x))) as [D|D]; unfold threaded in *; tauto. }
  assert (ABI : forall x, In x (sp_arbs s') <-> In x (sp_arbs s) /\ ~ In x (flat_map (owned s) l)) by (intros x; rewrite Ab; apply sdels_In, I).
  split; [|split; auto; intros x; rewrite TH, ABI, OW; destruct (in_dec Nat.eq_dec x (arbl s (ba s x))) as [D|D]; unfold threaded in *; tauto].
  assert (RNS : ~ In r (sp_sleep s)). { intros D. destruct (i_comp _ _ I r D) as (m & _ & _ & X). specialize (X r (or_introl eq_refl)). rewrite RT in X; [discriminate|cbn; auto]. }
  assert (CHO : forall m p, (forall y, In y m -> ~ In y l) -> chain s p m -> chain s' p m). { intros m p D. apply chain_ext. intros y Hy. apply RO. auto. }
  constructor; rewrite ?Es, ?Ec, ?Est, ?Ero, ?Epo, ?Elo, ?Esp, ?Enb, ?Ena, ?Esb; try solve [apply I].
  - rewrite Dy. apply dels_nodup, I.
  - rewrite Sl. apply NoDup_snoc; auto. apply I.
  - intros y. rewrite Dy, dels_In by apply I. rewrite INB, K, RN, (i_dyn _ _ I). tauto.
  - intros y. rewrite INB, K. apply I.
  - intros y. rewrite INB. apply I.
  - rewrite INB, K. apply I.
  - intros y q. rewrite RS, INB, K, Sl, In_snoc. intros [E|[E ->]].
    + destruct (i_root _ _ I y q E) as (X1 & X2 & X3 & m & X4 & X5). splits; auto. exists m. split; auto. apply CHO; auto.
      destruct (comp_of s [] q I X3) as (m' & [KC' KN' KI'] & _). rewrite (chain_inj s m m' _ X4 KC'). intros z Hz D. apply KI' in Hz. rewrite (RT z D) in Hz. discriminate.
    + splits; auto; [apply KI; auto|]. exists l. auto.
  - intros q. rewrite Sl, In_snoc. intros [Hq| ->].
    + destruct (i_comp _ _ I q Hq) as (m & X1 & X2 & X3). exists m. splits; auto.
      * apply CHO; auto. intros z Hz D. apply X3 in Hz. rewrite (RT z D) in Hz. discriminate.
      * intros y Hy. apply RS. auto.
    + exists t. splits; auto.
  - intros y. rewrite RN. intros [E D]. destruct (RO y D) as [_ ->]. now apply I.
  - intros y. rewrite K. unfold idle in ID. rewrite ID. apply I.
  - intros x y. rewrite SH. apply I.
  - intros y. rewrite SH. apply I.
  - rewrite Di. apply dels_nodup, I.
  - rewrite Si. apply nodup_app. splits; auto; [apply I|]. intros x X Y. apply OSI in Y. tauto.
  - intros x. rewrite Di, dels_In by apply I. rewrite OS, K, RN, (i_didx _ _ I). tauto.
  - intros x. rewrite Si, in_app_iff, OS, K, RN, (i_sidx _ _ I). destruct (in_dec Nat.eq_dec (ss_body (sp_s s x)) l) as [D|D]; [tauto|]. split.
    + intros [[X [Y|Y]]|[X Y]]; [auto| |tauto]. split; auto. right. tauto.
    + intros [X [Y|Y]]; tauto.
  - intros x. rewrite PR. apply I.
  - intros c y. rewrite C. apply I.
  - intros y. rewrite C. apply I.
  - intros c. rewrite !PR. apply I.
  - rewrite Co. apply dels_nodup, I.
  - intros c. rewrite Co, dels_In by apply I. rewrite OC, !RN, (i_cons _ _ I). destruct (in_dec Nat.eq_dec (sc_a (sp_c s c)) l), (in_dec Nat.eq_dec (sc_b (sp_c s c)) l); tauto.
  - intros c q Hc. rewrite !RS, !K. destruct (i_con_cl _ _ I c q Hc) as [C1 C2], (CC c Hc) as [C3 C4]. split; (intros [E|[E ->]]; [destruct (C1 E)|destruct (C3 E)] || (intros [E|[E ->]]; [destruct (C2 E)|destruct (C4 E)])); auto.
  - intros x y. rewrite BA, BB, !A. apply I.
  - intros y. rewrite A. apply I.
  - rewrite Ab. apply sdels_nodup, I.
  - intros x. rewrite ABI, Ca, dels_In by apply I. rewrite Ea. intros [X Y]. destruct (i_arbs _ _ I x X). auto.
  - intros x. rewrite ABI, TH. split; [intros []|]. intros [[X _] Y]. apply (i_pend _ _ I x). auto.
  - intros x. rewrite ABI, TH, BA, BB, !RN, OW. intros [X Y] Tx. destruct (i_awake _ _ I x X Tx). tauto.
  - intros x. rewrite ABI, TH, Ca, dels_In by apply I. rewrite OW, BA, BB. intros Tx. destruct (i_thr_st _ _ I x Tx) as [X|[X Y]].
    + destruct (in_dec Nat.eq_dec (ba s x) l) as [D|D]; [|destruct (in_dec Nat.eq_dec (bb s x) l) as [D'|D']]; [right|right|left]; [split; [tauto|left; rewrite (RL _ D); discriminate]|split; [tauto|right; rewrite (RL _ D'); discriminate]|tauto].
    + right. split; [tauto|]. rewrite !RN. tauto.
  - intros x q. rewrite TH, BA, BB, !RS, !K. intros Tx. destruct (i_thr_cl _ _ I x q Tx) as [C1 C2], (CT x Tx) as [C3 C4]. split; (intros [E|[E ->]]; [destruct (C1 E)|destruct (C3 E)] || (intros [E|[E ->]]; [destruct (C2 E)|destruct (C4 E)])); auto.
  - rewrite Ca. apply dels_nodup, I.
  - intros x. rewrite LV, BA, BB, Ea. apply I.
  - intros x y. rewrite !LV. unfold same_shapes. rewrite Ea. apply I.
  - intros x. rewrite LV. apply I.
Qed.
End Sleep.
