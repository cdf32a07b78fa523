From Coq Require Import Reals ZArith Bool List Arith Lia Permutation.
From Verif Require Import Num Spec SpecIndex.
From Verif.Model Require Import Vector BB BBTree.
From Verif.Proofs Require Import Util BBOrder BBTreeInv BBTreePairs BBTreeHist.
Import ListNotations.
Local Open Scope nat_scope.

Section Top.
Ltac sp := repeat match goal with |- _ /\ _ => split end.
Context {T : Type} {NT : Num T} {OT : OrdNum T}.
Variable e0 : env T.
Notation run := (run e0).
Notation valid := (valid e0).
Notation env_now := (env_now e0).

Lemma env_now_ok h : valid h -> env_ok (env_now h).
Proof. induction h as [|o h IH]; cbn; auto. intros [Ha Hv]. destruct o; auto. Qed.

Lemma get_tree_all (s : index T) id : In id (map lid (all s)) <-> In id (ids (dyn s)) \/ In id (ids (sta s)).
Proof. unfold all. rewrite map_app, in_app_iff. reflexivity. Qed.

(** ids in each tree after a place *)
Lemma place_ids d d' (s : index T) l i : NoDup (map lid (all s)) -> ~ In (lid l) (ids (get_tree (negb d) s)) ->
  (In i (ids (get_tree d' (place d s l))) <-> (d' = d /\ i = lid l) \/ In i (ids (get_tree d' s))).
Proof.
  intros Hn Ho. pose proof (place_tree d s l Hn) as Hp. apply (Permutation_map lid) in Hp.
  destruct (bool_dec d' d) as [->|Hd].
  - split; intros HI.
    + apply (Permutation_in _ Hp) in HI as [<-|HI]; auto.
      apply in_map_iff in HI as (y & <- & Hy). apply filter_In in Hy as [Hy _]. right. now apply in_map.
    + apply (Permutation_in _ (Permutation_sym Hp)). destruct (Nat.eq_dec i (lid l)) as [->|Hne]; [now left|].
      destruct HI as [[_ HI]|HI]; [contradiction|].
      right. apply in_map_iff in HI as (y & <- & Hy). apply in_map. apply filter_In. split; auto. now apply neqid_true.
  - assert (get_tree d' (place d s l) = get_tree d' s) as -> by (destruct d, d'; try reflexivity; exfalso; apply Hd; reflexivity).
    split; auto. intros [[E _]|H]; auto. contradiction.
Qed.
Lemma place_leaf d d' (s : index T) l y : NoDup (map lid (all s)) -> 
  In y (oleaves (get_tree d' (place d s l))) -> (d' = d /\ y = l) \/ In y (oleaves (get_tree d' s)).
Proof.
  intros Hn HI. pose proof (place_tree d s l Hn) as Hp.
  destruct (bool_dec d' d) as [->|Hd].
  - apply (Permutation_in _ Hp) in HI as [<-|HI]; auto. apply filter_In in HI. right; tauto.
  - right. destruct d, d'; try exact HI; exfalso; apply Hd; reflexivity.
Qed.
Lemma other_tree d d' (s : index T) l : d' <> d -> get_tree d' (place d s l) = get_tree d' s.
Proof. destruct d, d'; try reflexivity; intros H; exfalso; apply H; reflexivity. Qed.

Lemma remove_ids d d' (s : index T) id i : NoDup (map lid (all s)) ->
  (In i (ids (get_tree d' (ix_remove d s id))) <-> In i (ids (get_tree d' s)) /\ (d' = d -> i <> id)).
Proof.
  intros Hn. destruct (bool_dec d' d) as [->|Hd].
  - assert (E : oleaves (get_tree d (ix_remove d s id)) = filter (fun l => negb (lid l =? id)) (oleaves (get_tree d s))).
    { unfold ix_remove. destruct d; cbn [get_tree set_tree set_pairs dyn sta]; rewrite leaves_root_remove; auto using nodup_dyn, nodup_sta. }
    unfold ids. rewrite E. split.
    + intros HI. apply in_map_iff in HI as (y & <- & Hy). apply filter_In in Hy as [Hy Hne].
      split; [now apply in_map|]. intros _. apply neqid_true in Hne. exact Hne.
    + intros [HI Hne]. apply in_map_iff in HI as (y & <- & Hy). apply in_map. apply filter_In. split; auto.
      apply neqid_true. auto.
  - assert (get_tree d' (ix_remove d s id) = get_tree d' s) as -> by (destruct d, d'; try reflexivity; exfalso; apply Hd; reflexivity).
    split; [intros; split; auto; intros; contradiction|tauto].
Qed.
Lemma remove_leaf d d' (s : index T) id y : NoDup (map lid (all s)) ->
  In y (oleaves (get_tree d' (ix_remove d s id))) -> In y (oleaves (get_tree d' s)).
Proof.
  intros Hn. unfold ix_remove. destruct d, d'; cbn [get_tree set_tree set_pairs dyn sta]; auto;
  rewrite leaves_root_remove by auto using nodup_dyn, nodup_sta; rewrite filter_In; tauto.
Qed.

Lemma reindex_object_ids d d' e (s : index T) id i : env_ok e -> Inv s ->
  (In i (ids (get_tree d' (ix_reindex_object d e s id))) <-> In i (ids (get_tree d' s))).
Proof.
  intros He HI. unfold ix_reindex_object. destruct (find_leaf (get_tree d s) id) as [l|] eqn:E; [|tauto].
  pose proof (leaf_update_spec d e s id) as Hu. destruct (leaf_update d e s id) as [s1 moved].
  destruct Hu as [(-> & -> & _)|(l' & El & -> & ->)].
  - destruct d'; reflexivity.
  - assert (Ho : ~ In id (ids (get_tree (negb d) s))) by (apply other_absent; [apply HI|eapply find_ids; eauto]).
    set (z := mkLeaf _ _ _). pose proof (place_ids d d' s z i (pm_nodup s (proj1 HI)) Ho) as Hp.
    match goal with |- In i (ids (get_tree d' ?x)) <-> _ => assert (Eg : get_tree d' x = get_tree d' (place d s z)) by (destruct d', d; reflexivity) end.
    rewrite Eg, Hp. split; auto. intros [[-> ->]|H]; auto. eapply find_ids; eauto.
Qed.

(** the model's contents and the specification's *)
Record agrees (h : list (op T)) : Prop := {
  ag_inv : Inv (run h);
  ag_ids : forall d i, In i (ids (get_tree d (run h))) <-> In i (members d h);
  ag_box : forall d l, In l (oleaves (get_tree d (run h))) ->
     exists b, indexed e0 d (lid l) h = Some b /\ subbox b (lbb l);
}.

Lemma eqb_bool_false d d' : Bool.eqb d d' = false -> d <> d'.
Proof. destruct d, d'; cbn; congruence. Qed.

Lemma run_agrees h : valid h -> agrees h.
Proof.
  induction h as [|o h IH]; intros Hv.
  - constructor; cbn.
    + apply Inv_empty.
    + intros [|] i; cbn; tauto.
    + intros [|] l; cbn; tauto.
  - destruct Hv as [Ha Hv]. specialize (IH Hv). destruct IH as [HI Hids Hbox].
    pose proof (env_now_ok h Hv) as He. pose proof (pm_nodup _ (proj1 HI)) as Hn.
    destruct o as [e|d id|d id|d id|order]; cbn [SpecIndex.run apply allowed] in *.
    + constructor; cbn; auto.
    + (* insert *)
      destruct Ha as [Ha1 Ha2].
      assert (Hna : ~ In id (map lid (all (run h)))).
      { rewrite get_tree_all. rewrite (Hids true id), (Hids false id). tauto. }
      assert (Ho : forall d'', ~ In id (ids (get_tree d'' (run h)))).
      { intros d''. rewrite Hids. destruct d''; auto. }
      pose proof (insert_place d (env_now h) (run h) id (proj1 HI) Hna) as Ei. cbn zeta in Ei.
      set (z := mkLeaf id (get_bb d (env_now h) id) (stamp (run h))) in *.
      assert (Eg : forall d', get_tree d' (ix_insert d (env_now h) (run h) id) = get_tree d' (place d (run h) z)).
      { intros d'. rewrite Ei. destruct d'; reflexivity. }
      constructor; cbn [SpecIndex.run apply members indexed].
      * now apply Inv_insert.
      * intros d' i. rewrite Eg. rewrite place_ids by (auto; apply Ho). rewrite Hids.
        destruct (Bool.eqb d' d) eqn:Ed.
        -- apply eqb_prop in Ed as ->. cbn. split; [intros [[_ ->]|H]; auto|intros [<-|H]; auto].
        -- apply eqb_bool_false in Ed. split; auto. intros [[E _]|H]; auto. contradiction.
      * intros d' l Hl. rewrite Eg in Hl. 
        destruct (Bool.eqb d' d) eqn:Ed; cbn [andb].
        -- apply eqb_prop in Ed as ->. destruct (lid l =? id) eqn:El.
           ++ apply Nat.eqb_eq in El. exists (cur (env_now h) (lid l)). split; auto.
              apply place_leaf in Hl as [[_ ->]|Hl]; auto; [apply He|].
              exfalso. apply (Ho d). rewrite <- El. now apply in_map.
           ++ apply Nat.eqb_neq in El. apply place_leaf in Hl as [[_ ->]|Hl]; auto. exfalso; apply El; reflexivity.
        -- apply eqb_bool_false in Ed. rewrite other_tree in Hl by auto. auto.
    + (* remove *)
      assert (Ho : ~ In id (ids (get_tree (negb d) (run h)))) by (apply other_absent; auto; now apply Hids).
      constructor; cbn [SpecIndex.run apply members indexed].
      * now apply Inv_remove.
      * intros d' i. rewrite remove_ids by auto. rewrite Hids. destruct (Bool.eqb d' d) eqn:Ed.
        -- apply eqb_prop in Ed as ->. split.
           ++ intros [H1 H2]. apply in_in_remove; auto.
           ++ intros H. apply in_remove in H. tauto.
        -- apply eqb_bool_false in Ed. split; [tauto|]. intros H; split; [exact H|intros E; contradiction].
      * intros d' l Hl. apply Hbox. eapply remove_leaf; eauto.
    + (* reindex object *)
      constructor; cbn [SpecIndex.run apply members indexed].
      * now apply Inv_reindex_object.
      * intros d' i. rewrite reindex_object_ids by auto. apply Hids.
      * intros d' l Hl. unfold ix_reindex_object in Hl.
        destruct (find_leaf (get_tree d (run h)) id) as [l0|] eqn:Ef.
        2:{ exfalso. apply (find_leaf_none _ _ Ef). now apply Hids. }
        pose proof (leaf_update_spec d (env_now h) (run h) id) as Hu.
        destruct (leaf_update d (env_now h) (run h) id) as [s1 moved].
        destruct Hu as [(-> & -> & Hc)|(l' & El & -> & ->)].
        -- assert (Hl2 : In l (oleaves (get_tree d' (run h)))) by (destruct d'; exact Hl).
           destruct (Bool.eqb d' d) eqn:Ed; cbn [andb]; [|now apply Hbox].
           apply eqb_prop in Ed as ->. destruct (lid l =? id) eqn:El; [|now apply Hbox].
           apply Nat.eqb_eq in El. eexists; split; eauto. rewrite El.
           destruct (find_leaf_in _ _ _ Ef) as [H1 H2]. assert (l = l0) as ->; [|now apply Hc].
           apply (lid_inj (oleaves (get_tree d (run h)))); auto; [|congruence].
           destruct d; [now apply nodup_dyn|now apply nodup_sta].
        -- set (z := mkLeaf id (get_bb d (env_now h) id) (stamp (run h))) in *.
           assert (Hl2 : In l (oleaves (get_tree d' (place d (run h) z)))) by (destruct d', d; exact Hl).
           destruct (Bool.eqb d' d) eqn:Ed; cbn [andb].
           2:{ apply eqb_bool_false in Ed. rewrite other_tree in Hl2 by auto. auto. }
           apply eqb_prop in Ed as ->. destruct (lid l =? id) eqn:Eli.
           ++ apply Nat.eqb_eq in Eli. eexists; split; eauto.
              assert (l = z) as ->; [|apply He].
              pose proof (place_tree d (run h) z Hn) as Hp. apply (Permutation_in _ Hp) in Hl2 as [<-|Hl2]; auto.
              apply filter_In in Hl2 as [_ Hl2]. apply neqid_true in Hl2. contradiction.
           ++ apply Nat.eqb_neq in Eli. apply place_leaf in Hl2 as [[_ ->]|Hl2]; auto. exfalso; apply Eli; reflexivity.
    + (* reindex query *)
      pose proof (reindex_query_spec (env_now h) order (run h) He HI) as Hq.
      destruct (ix_reindex_query (env_now h) order (run h)) as [s' rep] eqn:Eq. cbn [fst].
      destruct Hq as (Q1 & Q2 & Q3 & Q4 & _).
      { intros i Hi. apply Ha. now apply (Hids true). }
      constructor; cbn [SpecIndex.run apply members indexed]; rewrite ?Eq; cbn [fst].
      * exact Q1.
      * intros [|] i; cbn [get_tree]; [rewrite Q3; apply (Hids true)|rewrite Q2; apply (Hids false)].
      * intros [|] l Hl; cbn [get_tree] in Hl.
        -- eexists; split; eauto.
        -- rewrite Q2 in Hl. now apply (Hbox false).
Qed.

(** C10 *)
Fixpoint nested (t : tree T) : Prop :=
  match t with
  | Leaf _ => True
  | Node b a c => (forall l, In l (leaves t) -> subbox (lbb l) b) /\ nested a /\ nested c
  end.
Lemma wf_nested t : wf t -> nested t.
Proof.
  induction t as [l|b a IHa c IHc]; cbn; auto. intros (H1 & H2 & Ha & Hc). sp; auto.
  intros l Hl. apply in_app_or in Hl as [Hl|Hl]; eapply subbox_trans; eauto using wf_leaf_sub.
Qed.

Theorem tree_wellformed h : valid h -> forall d,
  (forall id, In id (map lid (oleaves (get_tree d (run h)))) <-> In id (members d h)) /\
  NoDup (map lid (oleaves (get_tree d (run h)))) /\
  (forall t, get_tree d (run h) = Some t -> nested t) /\
  (forall l, In l (oleaves (get_tree d (run h))) ->
     exists b, indexed e0 d (lid l) h = Some b /\ subbox b (lbb l)).
Proof.
  intros Hv d. destruct (run_agrees h Hv) as [HI Hids Hbox]. sp.
  - exact (Hids d).
  - destruct d; [apply nodup_dyn|apply nodup_sta]; apply HI.
  - intros t Et. apply wf_nested. pose proof (wf_get d _ (proj1 HI)) as Hw. rewrite Et in Hw. exact Hw.
  - apply Hbox.
Qed.

(** C11 *)
Theorem query_spec h q : valid h -> forall d,
  let r := ix_query (get_tree d (run h)) q in
  NoDup r /\
  (forall id b, In id (members d h) -> indexed e0 d id h = Some b -> bb_intersects b q = true -> In id r) /\
  (forall id, In id r -> In id (members d h) /\
     exists l, In l (oleaves (get_tree d (run h))) /\ lid l = id /\ bb_intersects (lbb l) q = true).
Proof.
  intros Hv d. cbn zeta. destruct (run_agrees h Hv) as [HI Hids Hbox].
  assert (E : ix_query (get_tree d (run h)) q =
     map lid (filter (fun l => bb_intersects (lbb l) q) (oleaves (get_tree d (run h))))).
  { pose proof (wf_get d _ (proj1 HI)) as Hw. destruct (get_tree d (run h)) as [t|]; cbn; auto. now apply query_exact. }
  rewrite E. sp.
  - apply nodup_map_filter. destruct d; [apply nodup_dyn|apply nodup_sta]; apply HI.
  - intros id b Hm Hi Hq. apply Hids in Hm. unfold ids in Hm. apply in_map_iff in Hm as (l & <- & Hl).
    apply in_map. apply filter_In. split; auto. destruct (Hbox d l Hl) as (b' & E' & Hs).
    rewrite E' in Hi. injection Hi as ->. eapply subbox_intersects; eauto.
  - intros id HIn. apply in_map_iff in HIn as (l & <- & Hl). apply filter_In in Hl as [Hl Hq]. split.
    + apply Hids. now apply in_map.
    + exists l; auto.
Qed.

(** C12 *)
Theorem reindex_reports h order : valid (OReindexQuery order :: h) ->
  let rep := snd (ix_reindex_query (env_now h) order (run h)) in
  (forall i j, In i (members true h) -> In j (members true h) -> i <> j ->
     bb_intersects (cur (env_now h) i) (cur (env_now h) j) = true -> times i j rep = 1) /\
  (forall i j b, In i (members true h) -> In j (members false h) ->
     indexed e0 false j h = Some b ->
     bb_intersects (cur (env_now h) i) b = true -> times i j rep = 1) /\
  (forall i j, i <> j -> times i j rep <= 1) /\
  (forall i j, In (i, j) rep -> i <> j /\ 
     (In i (members true h) /\ In j (members true h) \/
      In i (members true h) /\ In j (members false h) \/
      In i (members false h) /\ In j (members true h)) /\
     exists x y, lid x = i /\ lid y = j /\ 
       In x (oleaves (dyn (run (OReindexQuery order :: h))) ++ oleaves (sta (run (OReindexQuery order :: h)))) /\
       In y (oleaves (dyn (run (OReindexQuery order :: h))) ++ oleaves (sta (run (OReindexQuery order :: h)))) /\
       bb_intersects (lbb x) (lbb y) = true).
Proof.
  intros Hv. cbn zeta. pose proof (run_agrees _ Hv) as [HI' Hids' Hbox'].
  destruct Hv as [Ha Hv]. destruct (run_agrees h Hv) as [HI Hids Hbox].
  pose proof (env_now_ok h Hv) as He. cbn in Ha.
  pose proof (reindex_query_spec (env_now h) order (run h) He HI) as Hq.
  cbn [SpecIndex.run apply] in *.
  destruct (ix_reindex_query (env_now h) order (run h)) as [s' rep] eqn:Eq. cbn [fst snd] in *.
  destruct Hq as (Q1 & Q2 & Q3 & Q4 & Q5 & Q6).
  { intros i Hi. apply Ha. now apply (Hids true). }
  fold (all s'). change (oleaves (dyn s') ++ oleaves (sta s')) with (all s').
  assert (Hti : forall i j, times i j rep = cnt i j rep) by reflexivity.
  assert (Hd : forall i, In i (map lid (dleaves s')) <-> In i (members true h)) by (intros i; rewrite <- (Hids true); apply Q3).
  assert (Hs : forall i, In i (map lid (sleaves s')) <-> In i (members false h)).
  { intros i. rewrite <- (Hids false). cbn [get_tree]. unfold sleaves. rewrite Q2. reflexivity. }
  assert (Hda : forall x, In x (dleaves s') -> In x (all s')) by (intros; unfold all; apply in_or_app; auto).
  assert (Hsa : forall x, In x (sleaves s') -> In x (all s')) by (intros; unfold all; apply in_or_app; auto).
  sp.
  - intros i j Hi Hj Hij Ho. apply Hd in Hi, Hj. apply in_map_iff in Hi as (x & <- & Hx). apply in_map_iff in Hj as (y & <- & Hy).
    rewrite Hti, Q5 by auto. assert (overlap x y = true) as ->; auto. unfold overlap.
    eapply subbox_intersects; [apply Q4; auto|]. rewrite intersects_sym. eapply subbox_intersects; [apply Q4; auto|].
    rewrite intersects_sym. exact Ho.
  - intros i j b Hi Hj Hb Ho. apply Hd in Hi. apply Hs in Hj. apply in_map_iff in Hi as (x & <- & Hx). apply in_map_iff in Hj as (y & <- & Hy).
    assert (Hne : lid y <> lid x).
    { intros E. pose proof (pm_nodup s' (proj1 Q1)) as Hn. unfold all in Hn. rewrite map_app in Hn.
      apply nodup_app_iff in Hn as (_ & _ & Hn). apply (Hn (lid x)); [now apply in_map|]. rewrite <- E. now apply in_map. }
    rewrite Hti, cnt_sym, Q5 by auto. assert (overlap y x = true) as ->; auto. unfold overlap.
    rewrite intersects_sym. eapply subbox_intersects; [apply Q4; auto|]. rewrite intersects_sym.
    destruct (Hbox' false y) as (b' & Eb & Hsb); [exact Hy|]. cbn [indexed] in Eb. rewrite Hb in Eb. injection Eb as <-.
    eapply subbox_intersects; [exact Hsb|]. rewrite intersects_sym. exact Ho.
  - intros i j Hij. rewrite Hti. destruct (filter (same i j) rep) as [|[a b] L] eqn:Ef.
    { unfold cnt. rewrite Ef. cbn. lia. }
    assert (HIn : In (a, b) (filter (same i j) rep)) by (rewrite Ef; now left). apply filter_In in HIn as [HIn Hsm].
    apply Q6 in HIn as (H1 & H2 & H3 & H4). apply same_true in Hsm.
    assert (Hc : forall i j, In i (map lid (all s')) -> In j (map lid (dleaves s')) -> i <> j -> cnt i j rep <= 1).
    { intros i0 j0 Hi0 Hj0 Hne. apply in_map_iff in Hi0 as (x & <- & Hx). apply in_map_iff in Hj0 as (y & <- & Hy).
      rewrite Q5 by auto. destruct (overlap x y); lia. }
    destruct Hsm as [[= -> ->]|[= -> ->]]; destruct H4 as [H4|H4]; auto; rewrite cnt_sym; auto.
  - intros i j HIn. pose proof (Q6 i j HIn) as (H1 & H2 & H3 & H4). sp; auto.
    + unfold all in H1, H2. rewrite map_app, in_app_iff in H1, H2. rewrite !Hd, !Hs in *. tauto.
    + apply in_map_iff in H1 as (x & <- & Hx). apply in_map_iff in H2 as (y & <- & Hy). exists x, y. sp; auto.
      assert (Hpos : cnt (lid x) (lid y) rep >= 1).
      { unfold cnt. assert (HH : In (lid x, lid y) (filter (same (lid x) (lid y)) rep)) by (apply filter_In; split; auto; apply same_true; auto).
        destruct (filter _ rep); [destruct HH|cbn; lia]. }
      destruct H4 as [H4|H4].
      * apply in_map_iff in H4 as (x' & E' & Hx'). assert (x' = x) as -> by (apply (lid_inj (all s')); auto; apply Q1).
        rewrite cnt_sym, Q5 in Hpos by auto. unfold overlap in Hpos. rewrite intersects_sym.
        destruct (bb_intersects (lbb y) (lbb x)); auto; lia.
      * apply in_map_iff in H4 as (y' & E' & Hy'). assert (y' = y) as -> by (apply (lid_inj (all s')); auto; apply Q1).
        rewrite Q5 in Hpos by auto. unfold overlap in Hpos.
        destruct (bb_intersects (lbb x) (lbb y)); auto; lia.
Qed.
End Top.

Section Perm.
Context {T : Type} {NT : Num T} {OT : OrdNum T}.
Variable e0 : env T.
Lemma nodup_members d (h : list (op T)) : valid e0 h -> NoDup (members d h).
Proof.
  induction h as [|o h IH]; cbn; [constructor|]. intros [Ha Hv]. specialize (IH Hv).
  destruct o as [e|d' id|d' id|d' id|order]; auto.
  - destruct (Bool.eqb d d') eqn:E; auto. constructor; auto. cbn in Ha. destruct d; tauto.
  - destruct (Bool.eqb d d') eqn:E; auto. clear - IH. induction (members d h) as [|x L IHL]; cbn; auto.
    apply NoDup_cons_iff in IH as [H1 H2]. destruct (Nat.eq_dec id x); auto. constructor; auto.
    intros H. apply in_remove in H. tauto.
Qed.
Lemma leaves_members d (h : list (op T)) : valid e0 h ->
  Permutation (map lid (oleaves (get_tree d (run e0 h)))) (members d h).
Proof.
  intros Hv. destruct (tree_wellformed e0 h Hv d) as (H1 & H2 & _). apply NoDup_Permutation; auto using nodup_members.
Qed.
End Perm.
