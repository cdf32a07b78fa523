(** Waking a component keeps the invariant. *)
From Coq Require Import List Arith NArith Bool Lia Permutation.
From Verif.Model Require Import HashSet Space.
From Verif.Proofs Require Import Util SpaceLib SpaceInv.
Import ListNotations.

Section Act.
Context {T : Type} `{Time T}.
Notation Sp := (Space T).
Implicit Types (s : Sp) (b x c r : nat).

Definition idle s b := sb_idle (sp_b s b).
(** the same bodies, up to idle times *)
Record SameB s s' : Prop := {
  v_kind : forall b, kind s' b = kind s b; v_root : forall b, root s' b = root s b; v_next : forall b, next s' b = next s b;
  v_arbl : forall b, arbl s' b = arbl s b; v_conl : forall b, conl s' b = conl s b; v_shl : forall b, shl s' b = shl s b; v_in : forall b, sb_in (sp_b s' b) = sb_in (sp_b s b) }.
(** the same arbiters, up to their state *)
Definition SameA s s' := forall x, sa_a (sp_a s' x) = sa_a (sp_a s x) /\ sa_b (sp_a s' x) = sa_b (sp_a s x) /\ ba s' x = ba s x /\ bb s' x = bb s x.
Record SameL s s' : Prop := {
  v_dyn : sp_dyn s' = sp_dyn s; v_stat : sp_stat s' = sp_stat s; v_sleep : sp_sleep s' = sp_sleep s; v_roused : sp_roused s' = sp_roused s;
  v_didx : sp_didx s' = sp_didx s; v_sidx : sp_sidx s' = sp_sidx s; v_arbs : sp_arbs s' = sp_arbs s; v_cache : sp_cache s' = sp_cache s; v_cons : sp_cons s' = sp_cons s;
  v_pool : sp_pool s' = sp_pool s; v_locked : sp_locked s' = sp_locked s; v_stamp : sp_stamp s' = sp_stamp s; v_nb : sp_nb s' = sp_nb s; v_na : sp_na s' = sp_na s; v_sb : sp_sb s' = sp_sb s;
  v_s : sp_s s' = sp_s s; v_c : sp_c s' = sp_c s }.
Lemma chain_ext s s' l : (forall b, In b l -> next s' b = next s b) -> forall p, chain s p l -> chain s' p l.
Proof. induction l as [|b l IH]; intros E p; cbn; auto. intros [-> C]. split; auto. rewrite E by (cbn; auto). apply IH; auto. intros; apply E; cbn; auto. Qed.
Lemma threaded_ext s s' x : arbl s' (ba s' x) = arbl s (ba s x) -> (threaded s' x <-> threaded s x).
Proof. unfold threaded. now intros ->. Qed.

Lemma core_ext s s' P : SameB s s' -> SameA s s' -> SameL s s' -> (forall x, sa_stamp (sp_a s' x) = sa_stamp (sp_a s x)) -> (forall b, kind s b = Kin -> idle s' b = idle s b \/ idle s' b = t0) ->
  Core s P -> Core s' P.
Proof.
  intros [K R N A C SH IN] AA [L1 L2 L3 L4 L5 L6 L7 L8 L9 L10 L11 L12 L13 L14 L15 L16 L17] ST ID I.
  assert (BA : forall x, ba s' x = ba s x) by (intros x; apply AA). assert (BB : forall x, bb s' x = bb s x) by (intros x; apply AA).
  assert (SA : forall x, sa_a (sp_a s' x) = sa_a (sp_a s x)) by (intros x; apply AA). assert (SB : forall x, sa_b (sp_a s' x) = sa_b (sp_a s x)) by (intros x; apply AA).
  assert (INB : forall b, inb s' b <-> inb s b) by (intros b; unfold inb; now rewrite IN).
  assert (TH : forall x, threaded s' x <-> threaded s x) by (intros x; unfold threaded; now rewrite A, BA).
  assert (LV : forall x, live s' x <-> live s x) by (intros x; unfold live; now rewrite TH, L8).
  assert (PR : forall b, present s' b <-> present s b) by (intros b; unfold present; now rewrite INB, L15).
  assert (SS : forall x y, same_shapes s' x y <-> same_shapes s x y) by (intros x y; unfold same_shapes; now rewrite !SA, !SB).
  constructor; rewrite ?L1, ?L2, ?L3, ?L4, ?L5, ?L6, ?L7, ?L8, ?L9, ?L10, ?L11, ?L12, ?L13, ?L14, ?L15, ?L16, ?L17; try solve [apply I].
  - intros b. rewrite INB, K, R. apply I.
  - intros b. rewrite INB, K. apply I.
  - intros b. rewrite INB. apply I.
  - rewrite INB, K. apply I.
  - intros b r. rewrite INB, K, R. intros E. destruct (i_root _ _ I b r E) as (X1 & X2 & X3 & l & X4 & X5). splits; auto. exists l. split; auto. eapply chain_ext; eauto.
  - intros r Hr. destruct (i_comp _ _ I r Hr) as (l & X1 & X2 & X3). exists l. splits; auto; [eapply chain_ext; eauto|]. intros y. rewrite R. auto.
  - intros b. rewrite R, N. apply I.
  - intros b. rewrite K. intros E. destruct (ID b E) as [X|X]; auto. change (idle s' b = t0). rewrite X. apply I; auto.
  - intros x b. rewrite SH. apply I.
  - intros b. rewrite SH. apply I.
  - intros x. rewrite K, R. apply I.
  - intros x. rewrite K, R. apply I.
  - intros x. rewrite PR. apply I.
  - intros c b. rewrite C. apply I.
  - intros b. rewrite C. apply I.
  - intros c. rewrite !PR. apply I.
  - intros c. rewrite !R. apply I.
  - intros c r. rewrite !R, !K. apply I.
  - intros x b. rewrite BA, BB, !A. apply I.
  - intros b. rewrite A. apply I.
  - intros x. rewrite ST. apply I.
  - intros x. rewrite TH. apply I.
  - intros x. rewrite TH, BA, BB, !R. apply I.
  - intros x. rewrite TH, BA, BB, !R. apply I.
  - intros x r. rewrite TH, BA, BB, !R, !K. apply I.
  - intros x. rewrite LV, SA, SB, BA, BB. apply I.
  - intros x y. rewrite !LV, SS. apply I.
  - intros x. rewrite LV. apply I.
Qed.

(** ** Members *)
Lemma members_chain s l : forall p fuel, chain s p l -> length l <= fuel -> members fuel s p = Some l.
Proof.
  induction l as [|b l IH]; intros p fuel; cbn [chain].
  - intros -> _. destruct fuel; reflexivity.
  - intros [-> C] L. destruct fuel as [|fuel]; cbn in L; [lia|]. cbn [members]. change (sb_next (bod s b)) with (next s b). rewrite (IH _ fuel C) by lia. reflexivity.
Qed.
Lemma chain_inj s l : forall l' p, chain s p l -> chain s p l' -> l = l'.
Proof. induction l as [|b l IH]; intros [|b' l'] p; cbn; auto; [intros -> []; discriminate|intros [-> ?] ?; discriminate|]. intros [-> C] [E C']. injection E as <-. f_equal. eauto. Qed.
Lemma nodup_bound l n : NoDup l -> (forall x, In x l -> x < n) -> length l <= n.
Proof. intros ND HB. rewrite <- (seq_length n 0). apply NoDup_incl_length; auto. intros x Hx. apply in_seq. specialize (HB x Hx). lia. Qed.

Record Comp s r l : Prop := { k_chain : chain s (Some r) l; k_nd : NoDup l; k_in : forall b, In b l <-> root s b = Some r }.
Lemma comp_of s P r : Core s P -> In r (sp_sleep s) -> exists l, Comp s r l /\ length l <= sp_nb s /\ In r l.
Proof.
  intros I Hr. destruct (i_comp _ _ I r Hr) as (l & X1 & X2 & X3). exists (r :: l).
  assert (K : forall b, In b (r :: l) <-> root s b = Some r).
  { intros b. split; auto. intros E. destruct (i_root _ _ I b r E) as (_ & _ & _ & l' & C' & In'). rewrite (chain_inj s l' (r :: l) _ C' X1) in In'. auto. }
  splits; [constructor; auto| |cbn; auto]. apply nodup_bound; auto. intros x Hx. apply (i_nb _ _ I). apply K in Hx. apply (i_root _ _ I) in Hx. tauto.
Qed.

(** what waking a component needs *)
Lemma awoken s P r l : Core s P -> Comp s r l -> exists s', each wake_one s l = Some s' /\ Woke s s' l /\
  (forall x, In x (flat_map (owned s) l) <-> threaded s x /\ (root s (ba s x) = Some r \/ root s (bb s x) = Some r)) /\
  (forall c, In c (flat_map (ownedc s) l) <-> sc_in (sp_c s c) = true /\ (root s (sc_a (sp_c s c)) = Some r \/ root s (sc_b (sp_c s c)) = Some r)) /\
  (forall x, In x (flat_map (shl s) l) <-> ss_in (sp_s s x) = true /\ root s (ss_body (sp_s s x)) = Some r) /\
  NoDup (flat_map (owned s) l) /\ NoDup (flat_map (ownedc s) l) /\ NoDup (flat_map (shl s) l).
Proof.
  intros I [KC KN KI].
  assert (KD : forall b, root s b = Some r -> kind s b = Dyn) by (intros b E; apply (i_root _ _ I) in E; tauto).
  assert (O1 : forall x b, In b l -> In x (owned s b) -> threaded s x /\ (root s (ba s x) = Some r \/ root s (bb s x) = Some r)).
  { intros x b Hb Hx. apply filter_In in Hx as [Hx _]. destruct (i_thr _ _ I _ _ Hx) as (E & T1 & T2). split; auto. apply KI in Hb. destruct E as [<-|<-]; auto. }
  assert (O2 : forall x, threaded s x -> (root s (ba s x) = Some r \/ root s (bb s x) = Some r) -> In x (flat_map (owned s) l)).
  { intros x Tx E. destruct (i_thr _ _ I _ _ Tx) as (_ & T1 & T2). apply in_flat_map.
    assert (EA : root s (ba s x) = Some r -> exists b, In b l /\ In x (owned s b)).
    { intros E'. exists (ba s x). split; [now apply KI|]. apply filter_In. split; auto. now rewrite Nat.eqb_refl. }
    destruct E as [E|E]; auto. destruct (i_thr_cl _ _ I x r Tx) as [_ CL]. destruct (CL E) as [CL'|CL']; auto.
    exists (bb s x). split; [now apply KI|]. apply filter_In. split; auto. unfold is_stat. rewrite CL'. apply orb_true_r. }
  assert (O3 : NoDup (flat_map (owned s) l)).
  { apply flat_map_nodup; auto.
    - intros b _. apply NoDup_filter. apply I.
    - intros b b' x Hb Hb' X X'. apply filter_In in X as [X X2]. apply filter_In in X' as [X' X2'].
      apply KI in Hb, Hb'. apply orb_true_iff in X2, X2'. rewrite Nat.eqb_eq in X2, X2'. unfold is_stat in *. rewrite kind_eqb_eq in X2, X2'.
      destruct (i_thr _ _ I _ _ X) as ([E|E] & _ & _), (i_thr _ _ I _ _ X') as ([E'|E'] & _ & _).
      + congruence.
      + destruct X2' as [X2'|X2']; [congruence|]. rewrite <- E in X2'. rewrite (KD _ Hb) in X2'. discriminate.
      + destruct X2 as [X2|X2]; [congruence|]. rewrite <- E' in X2. rewrite (KD _ Hb') in X2. discriminate.
      + congruence. }
  assert (C1 : forall c, In c (flat_map (ownedc s) l) <-> sc_in (sp_c s c) = true /\ (root s (sc_a (sp_c s c)) = Some r \/ root s (sc_b (sp_c s c)) = Some r)).
  { intros c. rewrite in_flat_map. split.
    - intros (b & Hb & Hc). apply filter_In in Hc as [Hc _]. apply (i_con _ _ I) in Hc as [Hc E]. split; auto. apply KI in Hb. destruct E as [->| ->]; auto.
    - intros [Hc E]. assert (EA : root s (sc_a (sp_c s c)) = Some r -> exists b, In b l /\ In c (ownedc s b)).
      { intros E'. exists (sc_a (sp_c s c)). split; [now apply KI|]. apply filter_In. split; [apply (i_con _ _ I); auto|]. now rewrite Nat.eqb_refl. }
      destruct E as [E|E]; auto. destruct (i_con_cl _ _ I c r Hc) as [_ CL]. destruct (CL E) as [CL'|CL']; auto.
      exists (sc_b (sp_c s c)). split; [now apply KI|]. apply filter_In. split; [apply (i_con _ _ I); auto|]. unfold is_stat. rewrite CL'. apply orb_true_r. }
  assert (C3 : NoDup (flat_map (ownedc s) l)).
  { apply flat_map_nodup; auto.
    - intros b _. apply NoDup_filter. apply I.
    - intros b b' x Hb Hb' X X'. apply filter_In in X as [X X2]. apply filter_In in X' as [X' X2'].
      apply KI in Hb, Hb'. apply orb_true_iff in X2, X2'. rewrite Nat.eqb_eq in X2, X2'. unfold is_stat in *. rewrite kind_eqb_eq in X2, X2'.
      apply (i_con _ _ I) in X as [_ [E|E]]; apply (i_con _ _ I) in X' as [_ [E'|E']].
      + congruence.
      + destruct X2' as [X2'|X2']; [congruence|]. rewrite E in X2'. rewrite (KD _ Hb) in X2'. discriminate.
      + destruct X2 as [X2|X2]; [congruence|]. rewrite E' in X2. rewrite (KD _ Hb') in X2. discriminate.
      + congruence. }
  assert (S1 : forall x, In x (flat_map (shl s) l) <-> ss_in (sp_s s x) = true /\ root s (ss_body (sp_s s x)) = Some r).
  { intros x. rewrite in_flat_map. split.
    - intros (b & Hb & Hx). apply (i_shp _ _ I) in Hx as [Hx <-]. split; auto. now apply KI.
    - intros [Hx E]. exists (ss_body (sp_s s x)). split; [now apply KI|]. apply (i_shp _ _ I). auto. }
  assert (S3 : NoDup (flat_map (shl s) l)).
  { apply flat_map_nodup; auto; [intros; apply I|]. intros b b' x _ _ X X'. apply (i_shp _ _ I) in X, X'. destruct X, X'. congruence. }
  destruct (woke_all l s) as (s' & E & W); auto; try solve [apply I].
  - intros x Hx. apply S1 in Hx as [Hx E]. split; [apply (i_sidx _ _ I); split; auto; right; congruence|]. intros D. apply (i_didx _ _ I) in D. destruct D as (_ & _ & D). congruence.
  - intros b _. apply I.
  - intros x y Hx Hy SS. apply in_flat_map in Hx as (b & Hb & Hx). destruct (O1 x b Hb Hx) as [Tx Ex].
    assert (x = y) by (apply (i_uniq _ _ I); unfold live; auto). subst y.
    destruct (i_thr_st _ _ I x Tx) as [X|[X _]]; auto. destruct (i_awake _ _ I x X Tx). destruct Ex; congruence.
  - intros x y Hx Hy SS. apply in_flat_map in Hx as (b & Hb & Hx). apply in_flat_map in Hy as (b' & Hb' & Hy).
    apply (i_uniq _ _ I); auto; right; [apply (i_thr _ _ I _ _ Hx)|apply (i_thr _ _ I _ _ Hy)].
  - exists s'. splits; auto. intros x. split; [|intros [X Y]; auto]. intros Hx. apply in_flat_map in Hx as (b & Hb & Hx). eauto.
Qed.

Definition eqo (p q : option nat) : bool := match p, q with Some x, Some y => Nat.eqb x y | None, None => true | _, _ => false end.
Lemma woke_core s P r l s1 : Core s P -> In r (sp_sleep s) -> Comp s r l -> Woke s s1 l ->
  (forall x, In x (flat_map (owned s) l) <-> threaded s x /\ (root s (ba s x) = Some r \/ root s (bb s x) = Some r)) ->
  (forall c, In c (flat_map (ownedc s) l) <-> sc_in (sp_c s c) = true /\ (root s (sc_a (sp_c s c)) = Some r \/ root s (sc_b (sp_c s c)) = Some r)) ->
  (forall x, In x (flat_map (shl s) l) <-> ss_in (sp_s s x) = true /\ root s (ss_body (sp_s s x)) = Some r) ->
  NoDup (flat_map (owned s) l) -> NoDup (flat_map (ownedc s) l) -> NoDup (flat_map (shl s) l) ->
  Core (set_sleep s1 (del r (sp_sleep s1))) P.
Proof.
  intros I Hr KM W OW OC OS N1 N2 N3. set (s' := set_sleep s1 _).
  assert (KI := k_in _ _ _ KM).
  assert (Rt : forall b, root s' b = if memb b l then None else root s b) by (intros b; unfold root, s'; ss; rewrite (w_b _ _ _ W); now destruct (memb b l)).
  assert (Nx : forall b, next s' b = if memb b l then None else next s b) by (intros b; unfold next, s'; ss; rewrite (w_b _ _ _ W); now destruct (memb b l)).
  assert (K : forall b, kind s' b = kind s b) by (intros b; unfold kind, s'; ss; rewrite (w_b _ _ _ W); now destruct (memb b l)).
  assert (A : forall b, arbl s' b = arbl s b) by (intros b; unfold arbl, s'; ss; rewrite (w_b _ _ _ W); now destruct (memb b l)).
  assert (C : forall b, conl s' b = conl s b) by (intros b; unfold conl, s'; ss; rewrite (w_b _ _ _ W); now destruct (memb b l)).
  assert (SH : forall b, shl s' b = shl s b) by (intros b; unfold shl, s'; ss; rewrite (w_b _ _ _ W); now destruct (memb b l)).
  assert (INB : forall b, inb s' b <-> inb s b) by (intros b; unfold inb, s'; ss; rewrite (w_b _ _ _ W); now destruct (memb b l)).
  assert (ID : forall b, sb_idle (sp_b s' b) = if memb b l then t0 else sb_idle (sp_b s b)) by (intros b; unfold s'; ss; rewrite (w_b _ _ _ W); now destruct (memb b l)).
  assert (BA : forall x, ba s' x = ba s x) by (intros x; unfold ba, s'; ss; rewrite (w_a _ _ _ W); now destruct (memb x _)).
  assert (BB : forall x, bb s' x = bb s x) by (intros x; unfold bb, s'; ss; rewrite (w_a _ _ _ W); now destruct (memb x _)).
  assert (SA : forall x, sa_a (sp_a s' x) = sa_a (sp_a s x)) by (intros x; unfold s'; ss; rewrite (w_a _ _ _ W); now destruct (memb x _)).
  assert (SB : forall x, sa_b (sp_a s' x) = sa_b (sp_a s x)) by (intros x; unfold s'; ss; rewrite (w_a _ _ _ W); now destruct (memb x _)).
  assert (TH : forall x, threaded s' x <-> threaded s x) by (intros x; unfold threaded; now rewrite A, BA).
  assert (CA : sp_cache s' = sp_cache s ++ flat_map (owned s) l) by apply W.
  assert (LV : forall x, live s' x <-> live s x).
  { intros x; unfold live. rewrite TH, CA, in_app_iff, OW. tauto. }
  assert (SBB : sp_sb s' = sp_sb s) by apply W.
  assert (PR : forall b, present s' b <-> present s b) by (intros b; unfold present; now rewrite INB, SBB).
  assert (SS : forall x y, same_shapes s' x y <-> same_shapes s x y) by (intros x y; unfold same_shapes; now rewrite !SA, !SB).
  assert (R0 : forall b, root s' b = None <-> root s b = None \/ root s b = Some r).
  { intros b. rewrite Rt. destruct (memb_spec b l) as [M|M]; rewrite KI in M; [tauto|]. split; auto. intros [?|?]; [auto|tauto]. }
  assert (R1 : forall b q, root s' b = Some q <-> root s b = Some q /\ q <> r).
  { intros b q. rewrite Rt. destruct (memb_spec b l) as [M|M]; rewrite KI in M; split; try congruence; try tauto.
    - intros [? ?]. congruence.
    - intros E. split; auto. congruence. }
  assert (KD : forall b q, root s b = Some q -> kind s b = Dyn) by (intros b q E; apply (i_root _ _ I) in E; tauto).
  assert (Dy : sp_dyn s' = sp_dyn s ++ l) by apply W. assert (Di : sp_didx s' = sp_didx s ++ flat_map (shl s) l) by apply W.
  assert (Si : sp_sidx s' = dels (flat_map (shl s) l) (sp_sidx s)) by apply W. assert (Sl : sp_sleep s' = del r (sp_sleep s)) by (unfold s'; ss; now rewrite (w_sleep _ _ _ W)).
  assert (Ab : sp_arbs s' = sp_arbs s ++ flat_map (owned s) l) by apply W. assert (Co : sp_cons s' = sp_cons s ++ flat_map (ownedc s) l) by apply W.
  assert (Es : sp_s s' = sp_s s) by apply W. assert (Ec : sp_c s' = sp_c s) by apply W.
  assert (Est : sp_stat s' = sp_stat s) by apply W. assert (Enb : sp_nb s' = sp_nb s) by apply W. assert (Ena : sp_na s' = sp_na s) by apply W.
  assert (Epo : sp_pool s' = sp_pool s) by apply W. assert (Esp : sp_stamp s' = sp_stamp s) by apply W.
  assert (OWN : forall x, In x (flat_map (owned s) l) -> ~ In x (sp_cache s)).
  { intros x Hx. apply OW in Hx as [Tx Ex]. destruct (i_thr_st _ _ I x Tx) as [X|[X _]]; auto. destruct (i_awake _ _ I x X Tx). destruct Ex; congruence. }
  constructor; rewrite ?Es, ?Ec, ?Est, ?Enb, ?Ena, ?Epo; try solve [apply I].
  - transitivity (sp_locked s); [apply W|apply I].
  - transitivity (sp_roused s); [apply W|apply I].
  - rewrite Dy. apply nodup_app. splits; [apply I|apply KM|]. intros b Hb Hb'. apply (i_dyn _ _ I) in Hb. apply KI in Hb'. destruct Hb as (_ & _ & Hb). congruence.
  - rewrite Sl. apply del_nodup, I.
  - intros b. rewrite Dy, in_app_iff, INB, K, R0, KI, (i_dyn _ _ I). split.
    + intros [(X & Y & Z)|E]; [splits; auto|]. pose proof (i_root _ _ I _ _ E) as (X & Y & _). splits; auto. congruence.
    + intros (X & Y & [Z|Z]); auto.
  - intros b. rewrite INB, K. apply I.
  - intros b. rewrite INB. apply I.
  - rewrite INB, K, SBB. apply I.
  - intros b q E. apply R1 in E as [E N]. rewrite INB, K. destruct (i_root _ _ I b q E) as (X1 & X2 & X3 & l' & X4 & X5). splits; auto.
    + rewrite Sl. apply del_In; [apply I|auto].
    + exists l'. split; auto. apply (chain_ext s); auto. intros y Hy. rewrite Nx. destruct (memb_spec y l) as [M|M]; auto. exfalso. apply KI in M.
      destruct (comp_of s P q I X3) as (l2 & C2 & _ & _). rewrite (chain_inj s l' l2 _ X4 (k_chain _ _ _ C2)) in Hy. apply (k_in _ _ _ C2) in Hy. congruence.
  - intros q Hq. rewrite Sl in Hq. apply del_In in Hq as [Hq N]; [|apply I]. destruct (i_comp _ _ I q Hq) as (l' & X1 & X2 & X3). exists l'. splits; auto.
    + apply (chain_ext s); auto. intros y Hy. rewrite Nx. destruct (memb_spec y l) as [M|M]; auto. exfalso. apply KI in M. apply X3 in Hy. congruence.
    + intros y Hy. apply R1. split; auto.
  - intros b. rewrite R0, Nx. destruct (memb_spec b l) as [M|M]; auto. rewrite KI in M. intros [E|E]; [|tauto]. apply I; auto.
  - intros b. rewrite K, ID. intros E. destruct (memb b l); auto. apply I; auto.
  - intros x b. rewrite SH. apply I.
  - intros b. rewrite SH. apply I.
  - rewrite Di. apply nodup_app. splits; auto; [apply I|]. intros x X Y. apply OS in Y as [_ Y]. apply (i_didx _ _ I) in X as (_ & _ & X). congruence.
  - rewrite Si. apply dels_nodup, I.
  - intros x. rewrite Di, in_app_iff, OS, K, R0, (i_didx _ _ I). split.
    + intros [(X & Y & Z)|[X Y]]; splits; auto. rewrite (KD _ _ Y). discriminate.
    + intros (X & Y & [Z|Z]); auto.
  - intros x. rewrite Si, dels_In by apply I. rewrite OS, K, (i_sidx _ _ I). assert (Q := R0 (ss_body (sp_s s x))). split.
    + intros [[X Y] Z]. split; auto. destruct Y as [Y|Y]; auto. right. intros E. apply Q in E as [E|E]; tauto.
    + intros [X [Y|Y]]; splits; auto.
      * intros [_ E]. rewrite (KD _ _ E) in Y. discriminate.
      * right. intros E. apply Y. apply Q. auto.
      * intros [_ E]. apply Y, Q. auto.
  - intros x. rewrite PR. apply I.
  - intros c b. rewrite C. apply I.
  - intros b. rewrite C. apply I.
  - intros c. rewrite !PR. apply I.
  - rewrite Co. apply nodup_app. splits; auto; [apply I|]. intros c X Y. apply OC in Y as [_ Y]. apply (i_cons _ _ I) in X as (_ & X1 & X2). destruct Y; congruence.
  - intros c. rewrite Co, in_app_iff, OC, !R0, (i_cons _ _ I). split.
    + intros [(X & Y & Z)|[X Y]]; splits; auto; destruct (i_con_cl _ _ I c r X) as [CL1 CL2].
      * destruct Y as [Y|Y]; auto. destruct (CL2 Y) as [Q|Q]; auto. left. destruct (root s (sc_a (sp_c s c))) eqn:E; auto. rewrite (KD _ _ E) in Q. discriminate.
      * destruct Y as [Y|Y]; auto. destruct (CL1 Y) as [Q|Q]; auto. left. destruct (root s (sc_b (sp_c s c))) eqn:E; auto. rewrite (KD _ _ E) in Q. discriminate.
    + intros (X & [Y|Y] & [Z|Z]); auto.
  - intros c q Hc. rewrite !R1, !K. destruct (i_con_cl _ _ I c q Hc) as [CL1 CL2]. split; intros [E N]; [destruct (CL1 E)|destruct (CL2 E)]; auto.
  - intros x b. rewrite BA, BB, !A. apply I.
  - intros b. rewrite A. apply I.
  - rewrite Ab. apply nodup_app. splits; auto; [apply I|]. intros x X Y. apply (OWN x Y). apply (i_arbs _ _ I) in X. tauto.
  - intros x. rewrite Ab, CA, Esp, !in_app_iff. unfold s'; ss. rewrite (w_a _ _ _ W). destruct (memb_spec x (flat_map (owned s) l)) as [M|M]; cbn [sa_stamp a_stamp]; [tauto|].
    intros [X|X]; [|tauto]. apply (i_arbs _ _ I) in X. tauto.
  - intros x. rewrite Ab, TH, in_app_iff, (i_pend _ _ I), OW. tauto.
  - intros x. rewrite Ab, TH, in_app_iff, BA, BB, !R0. intros [X|X] Tx; [destruct (i_awake _ _ I x X Tx); auto|]. apply OW in X as [_ X].
    destruct (i_thr_cl _ _ I x r Tx) as [CL1 CL2]. destruct X as [X|X]; split; auto.
    * destruct (CL1 X) as [Q|Q]; auto. left. destruct (root s (bb s x)) eqn:E; auto. rewrite (KD _ _ E) in Q. discriminate.
    * destruct (CL2 X) as [Q|Q]; auto. left. destruct (root s (ba s x)) eqn:E; auto. rewrite (KD _ _ E) in Q. discriminate.
  - intros x. rewrite Ab, CA, TH, !in_app_iff, BA, BB. intros Tx. destruct (i_thr_st _ _ I x Tx) as [X|[X Y]]; auto.
    destruct (in_dec Nat.eq_dec x (flat_map (owned s) l)) as [D|D]; auto. right. split; [tauto|]. rewrite OW in D.
    rewrite !R0. destruct Y as [Y|Y]; [left|right]; intros [Z|Z]; tauto.
  - intros x q. rewrite TH, BA, BB, !R1, !K. intros Tx. destruct (i_thr_cl _ _ I x q Tx) as [CL1 CL2]. split; intros [E N]; [destruct (CL1 E)|destruct (CL2 E)]; auto.
  - rewrite CA. apply nodup_app. splits; auto; [apply I|]. intros x X Y. apply (OWN x Y). auto.
  - intros x. rewrite LV, SA, SB, BA, BB. apply I.
  - intros x y. rewrite !LV, SS. apply I.
  - intros x. rewrite LV. apply I.
Qed.

(** ** Activate *)
(** everything that waking bodies leaves alone; what it changes, it changes in one direction *)
Record Wakes s s' : Prop := {
  y_kind : forall b, kind s' b = kind s b; y_in : forall b, sb_in (sp_b s' b) = sb_in (sp_b s b);
  y_arbl : forall b, arbl s' b = arbl s b; y_conl : forall b, conl s' b = conl s b; y_shl : forall b, shl s' b = shl s b;
  y_root : forall b, root s' b = root s b \/ root s' b = None; y_idle : forall b, idle s' b = idle s b \/ idle s' b = t0;
  y_s : sp_s s' = sp_s s; y_c : sp_c s' = sp_c s;
  y_a : forall x, sp_a s' x = sp_a s x \/ (threaded s x /\ ~ In x (sp_arbs s) /\ sp_a s' x = a_stamp (sp_a s x) (sp_stamp s));
  y_arbs : exists l, sp_arbs s' = sp_arbs s ++ l /\ forall x, In x l -> threaded s x /\ ~ In x (sp_arbs s);
  y_cons : exists l, sp_cons s' = sp_cons s ++ l;
  y_cache : exists l, sp_cache s' = sp_cache s ++ l /\ forall x, In x l -> threaded s x /\ ~ In x (sp_cache s);
  y_dyn : exists l, sp_dyn s' = sp_dyn s ++ l; y_sleep : incl (sp_sleep s') (sp_sleep s);
  y_log : sp_log s' = sp_log s; y_stat : sp_stat s' = sp_stat s; y_pool : sp_pool s' = sp_pool s; y_stamp : sp_stamp s' = sp_stamp s;
  y_nb : sp_nb s' = sp_nb s; y_na : sp_na s' = sp_na s; y_sb : sp_sb s' = sp_sb s }.
Lemma wakes_refl s : Wakes s s.
Proof. constructor; auto; try (apply incl_refl); exists []; rewrite app_nil_r; try reflexivity; split; try reflexivity; intros x []. Qed.
Lemma a_stamp2 a n : a_stamp (a_stamp a n) n = a_stamp a n.
Proof. reflexivity. Qed.
Lemma wakes_ba s s' x : Wakes s s' -> ba s' x = ba s x /\ bb s' x = bb s x /\ sa_a (sp_a s' x) = sa_a (sp_a s x) /\ sa_b (sp_a s' x) = sa_b (sp_a s x) /\ sa_state (sp_a s' x) = sa_state (sp_a s x).
Proof. intros W. unfold ba, bb. destruct (y_a _ _ W x) as [->|(_ & _ & ->)]; splits; reflexivity. Qed.
Lemma wakes_thr s s' x : Wakes s s' -> (threaded s' x <-> threaded s x).
Proof. intros W. unfold threaded. destruct (wakes_ba _ _ x W) as (-> & _). now rewrite (y_arbl _ _ W). Qed.
Lemma wakes_trans s s1 s2 : Wakes s s1 -> Wakes s1 s2 -> Wakes s s2.
Proof.
  intros W1 W2. assert (TH := fun x => wakes_thr s s1 x W1).
  destruct (y_arbs _ _ W1) as (l1 & E1 & F1), (y_arbs _ _ W2) as (l2 & E2 & F2), (y_cache _ _ W1) as (c1 & D1 & G1), (y_cache _ _ W2) as (c2 & D2 & G2).
  constructor; intros;
  try (first [rewrite (y_kind _ _ W2); apply W1|rewrite (y_in _ _ W2); apply W1|rewrite (y_arbl _ _ W2); apply W1|rewrite (y_conl _ _ W2); apply W1|rewrite (y_shl _ _ W2); apply W1
   |rewrite (y_s _ _ W2); apply W1|rewrite (y_c _ _ W2); apply W1|rewrite (y_log _ _ W2); apply W1|rewrite (y_stat _ _ W2); apply W1|rewrite (y_pool _ _ W2); apply W1|rewrite (y_stamp _ _ W2); apply W1
   |rewrite (y_nb _ _ W2); apply W1|rewrite (y_na _ _ W2); apply W1|rewrite (y_sb _ _ W2); apply W1]).
  - destruct (y_root _ _ W2 b) as [->| ->]; auto. apply W1.
  - destruct (y_idle _ _ W2 b) as [->| ->]; auto. apply W1.
  - destruct (y_a _ _ W2 x) as [->|(X & Y & ->)]; [apply W1|]. right. rewrite TH in X. rewrite E1, in_app_iff in Y. splits; auto. rewrite (y_stamp _ _ W1). destruct (y_a _ _ W1 x) as [->|(_ & _ & ->)]; reflexivity.
  - exists (l1 ++ l2). rewrite E2, E1, app_assoc. split; auto. intros x Hx. apply in_app_iff in Hx as [Hx|Hx]; auto. apply F2 in Hx as [X Y]. rewrite TH in X. rewrite E1, in_app_iff in Y. auto.
  - destruct (y_cons _ _ W1) as (m1 & M1), (y_cons _ _ W2) as (m2 & M2). exists (m1 ++ m2). now rewrite M2, M1, app_assoc.
  - exists (c1 ++ c2). rewrite D2, D1, app_assoc. split; auto. intros x Hx. apply in_app_iff in Hx as [Hx|Hx]; auto. apply G2 in Hx as [X Y]. rewrite TH in X. rewrite D1, in_app_iff in Y. auto.
  - destruct (y_dyn _ _ W1) as (m1 & M1), (y_dyn _ _ W2) as (m2 & M2). exists (m1 ++ m2). now rewrite M2, M1, app_assoc.
  - eapply incl_tran; [apply W2|apply W1].
Qed.
Lemma idle_wakes s b : Wakes s (upd_b s b (b_idle (bod s b) t0)).
Proof.
  destruct (wakes_refl s). constructor; auto; intros b'; unfold kind, arbl, conl, shl, root, idle; ss; rewrite upd_spec; destruct (Nat.eqb_spec b' b) as [->|]; auto.
Qed.
Lemma idle_core s b P : Core s P -> Core (upd_b s b (b_idle (bod s b) t0)) P.
Proof.
  intros I. apply (core_ext s); auto; [|intros x; splits; reflexivity|constructor; reflexivity|].
  - constructor; intros b'; unfold kind, arbl, conl, shl, root, next; ss; rewrite upd_spec; destruct (Nat.eqb_spec b' b) as [->|]; auto.
  - intros b' _. unfold idle. ss. rewrite upd_spec. destruct (Nat.eqb_spec b' b) as [->|]; auto.
Qed.
Lemma woke_wakes s P r l s1 : Core s P -> Comp s r l -> Woke s s1 l ->
  (forall x, In x (flat_map (owned s) l) <-> threaded s x /\ (root s (ba s x) = Some r \/ root s (bb s x) = Some r)) ->
  Wakes s (set_sleep s1 (del r (sp_sleep s1))).
Proof.
  intros I KM W OW.
  assert (OWN : forall x, In x (flat_map (owned s) l) -> threaded s x /\ ~ In x (sp_cache s) /\ ~ In x (sp_arbs s)).
  { intros x Hx. apply OW in Hx as [Tx Ex]. split; auto. destruct (i_thr_st _ _ I x Tx) as [X|[X _]]; [|split; auto; intros D; apply (i_arbs _ _ I) in D; tauto]. destruct (i_awake _ _ I x X Tx). destruct Ex; congruence. }
  constructor; try apply W; unfold kind, arbl, conl, shl, root, idle; ss; try (intros b; rewrite (w_b _ _ _ W); destruct (memb b l); auto).
  - intros x. rewrite (w_a _ _ _ W). destruct (memb_spec x (flat_map (owned s) l)) as [M|M]; auto. right. apply OWN in M as (? & ? & ?). auto.
  - eexists. split; [apply W|]. intros x Hx. apply OWN in Hx. tauto.
  - eexists. apply W.
  - eexists. split; [apply W|]. intros x Hx. apply OWN in Hx. tauto.
  - eexists. apply W.
  - rewrite (w_sleep _ _ _ W). intros x. apply del_incl.
Qed.
Lemma touch_ok b l : forall s P, Core s P -> exists s', each (touch_idle b) s l = Some s' /\ Core s' P /\ Wakes s s' /\ (forall y, root s' y = root s y) /\
  (forall x, In x l -> kind s (arb_other s b x) <> Stat -> idle s' (arb_other s b x) = t0).
Proof.
  induction l as [|x l IH]; intros s P I; cbn [each].
  - exists s. splits; auto; [apply wakes_refl|intros x []].
  - unfold touch_idle at 1. set (o := arb_other s b x). set (s1 := if is_stat s o then s else _).
    assert (I1 : Core s1 P) by (unfold s1; destruct (is_stat s o); auto; now apply idle_core).
    assert (W1 : Wakes s s1) by (unfold s1; destruct (is_stat s o); [apply wakes_refl|apply idle_wakes]).
    assert (R1 : forall y, root s1 y = root s y). { unfold s1; destruct (is_stat s o); auto. intros y. unfold root. ss. rewrite upd_spec. destruct (Nat.eqb_spec y o) as [->|]; auto. }
    assert (O1 : forall y, arb_other s1 b y = arb_other s b y). { intros y. unfold arb_other. destruct (wakes_ba _ _ y W1) as (X & Y & _). unfold ba, bb in *. now rewrite X, Y. }
    destruct (IH s1 P I1) as (s2 & E & I2 & W2 & R2 & T2). exists s2. splits; auto.
    + eapply wakes_trans; eauto.
    + intros y. rewrite R2. apply R1.
    + intros y [<-|Hy] Ks.
      * fold o. destruct (y_idle _ _ W2 o) as [->| ->]; auto. unfold s1. destruct (is_stat s o) eqn:Q; [unfold is_stat in Q; apply kind_eqb_eq in Q; unfold o in Q; tauto|]. unfold idle. ss. rewrite upd_same. reflexivity.
      * rewrite <- O1. apply T2; auto. rewrite O1, (y_kind _ _ W1). auto.
Qed.
Theorem activate_ok s P b : Core s P -> exists s', activate s b = Some s' /\ Core s' P /\ Wakes s s' /\
  (forall y, root s' y = if match root s b with Some r => eqo (root s y) (Some r) | None => false end then None else root s y) /\
  (kind s b = Dyn -> idle s' b = t0 /\ (forall y r, root s b = Some r -> root s y = Some r -> idle s' y = t0) /\
     forall x, In x (arbl s b) -> kind s (arb_other s b x) <> Stat -> idle s' (arb_other s b x) = t0) /\
  (kind s b <> Dyn -> s' = s).
Proof.
  intros I. unfold activate. destruct (is_dyn s b) eqn:Kb.
  2:{ cbn [negb]. exists s. unfold is_dyn in Kb. apply kind_eqb_neq in Kb. splits; auto; [apply wakes_refl| |tauto]. intros y. destruct (root s b) as [r|] eqn:Er; auto. destruct (i_root _ _ I _ _ Er) as (_ & X & _). tauto. }
  unfold is_dyn in Kb. apply kind_eqb_eq in Kb. cbn [negb]. set (s1 := upd_b s b _). assert (I1 : Core s1 P) by now apply idle_core. assert (W1 : Wakes s s1) by apply idle_wakes.
  assert (R1 : forall y, root s1 y = root s y). { intros y. unfold root, s1. ss. rewrite upd_spec. destruct (Nat.eqb_spec y b) as [->|]; auto. }
  assert (D1 : idle s1 b = t0). { unfold idle, s1. ss. now rewrite upd_same. }
  change (sb_root (bod s1 b)) with (root s1 b).
  assert (MID : exists s2, match root s1 b with None => Some s1 | Some r => if sleeping s1 r then match members (sp_nb s1) s1 (Some r) with Some l => match each wake_one s1 l with Some s => Some (set_sleep s (del r (sp_sleep s))) | None => None end | None => None end else Some s1 end = Some s2 /\
     Core s2 P /\ Wakes s1 s2 /\ (forall y, root s2 y = if match root s1 b with Some r => eqo (root s1 y) (Some r) | None => false end then None else root s1 y) /\
     (forall y r, root s1 b = Some r -> root s1 y = Some r -> idle s2 y = t0)).
  { destruct (root s1 b) as [r|] eqn:Er.
    - destruct (i_root _ _ I1 _ _ Er) as (Q1 & Q2 & Q3 & _). destruct (comp_of s1 P r I1 Q3) as (l & KM & LEN & RIN).
      apply (k_in _ _ _ KM) in RIN. unfold sleeping. change (sb_root (bod s1 r)) with (root s1 r). rewrite RIN.
      rewrite (members_chain s1 l); auto; [|apply KM]. destruct (awoken s1 P r l I1 KM) as (s2 & E2 & W2 & O1 & O2 & O3 & O4 & O5 & O6). rewrite E2.
      eexists. split; [reflexivity|]. splits.
      + eapply woke_core; eauto.
      + eapply woke_wakes; eauto.
      + intros y. unfold root at 1. ss. rewrite (w_b _ _ _ W2). destruct (memb_spec y l) as [M|M]; rewrite (k_in _ _ _ KM) in M.
        * rewrite M. cbn [eqo]. rewrite Nat.eqb_refl. reflexivity.
        * fold (root s1 y). destruct (root s1 y) as [q|] eqn:Eq; cbn [eqo]; auto. destruct (Nat.eqb_spec q r) as [->|]; auto. tauto.
      + intros y r' E' Ey. injection E' as <-. unfold idle. ss. rewrite (w_b _ _ _ W2). apply (k_in _ _ _ KM) in Ey. apply memb_In in Ey. now rewrite Ey.
    - exists s1. splits; auto; [apply wakes_refl|discriminate]. }
  destruct MID as (s2 & E2 & I2 & W2 & R2 & T2). rewrite E2. change (sb_arbs (bod s2 b)) with (arbl s2 b).
  destruct (touch_ok b (arbl s2 b) s2 P I2) as (s3 & E3 & I3 & W3 & R3 & T3). rewrite E3. exists s3. splits; auto.
  - eapply wakes_trans; [exact W1|]. eapply wakes_trans; eauto.
  - intros y. rewrite R3, R2, !R1. reflexivity.
  - intros _. splits.
    + destruct (y_idle _ _ W3 b) as [->| ->]; auto. destruct (y_idle _ _ W2 b) as [->| ->]; auto.
    + intros y r Eb Ey. destruct (y_idle _ _ W3 y) as [->| ->]; auto. apply T2 with r; now rewrite R1.
    + intros x Hx Ko. assert (Wx : Wakes s s2) by (eapply wakes_trans; eauto).
      assert (O1 : arb_other s2 b x = arb_other s b x). { unfold arb_other. destruct (wakes_ba _ _ x Wx) as (X & Y & _). unfold ba, bb in *. now rewrite X, Y. }
      rewrite <- O1. apply T3; rewrite ?O1, ?(y_arbl _ _ Wx), ?(y_kind _ _ Wx); auto.
  - tauto.
Qed.
Lemma activate_root s P b s' : Core s P -> activate s b = Some s' -> root s' b = None.
Proof.
  intros I E. destruct (activate_ok s P b I) as (s2 & E2 & _ & _ & R & _). rewrite E in E2. injection E2 as <-. rewrite R. destruct (root s b); auto. cbn [eqo]. now rewrite Nat.eqb_refl.
Qed.
End Act.
