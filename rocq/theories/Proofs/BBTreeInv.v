(** Structural facts about the tree: what it stores, what it bounds, what queries return. *)
From Coq Require Import Reals ZArith Bool List Arith Lia Permutation.
From Verif Require Import Num Spec.
From Verif.Model Require Import Vector BB BBTree.
From Verif.Proofs Require Import Util BBOrder.
Import ListNotations.

Section Tree.
Ltac sp := repeat match goal with |- _ /\ _ => split end.
Context {T : Type} {NT : Num T} {OT : OrdNum T}.
Notation B := (BB T).
Notation tree := (tree T).
Notation leaf := (leaf T).

(** every interior box contains its children's boxes; no NaN anywhere *)
Fixpoint wf (t : tree) : Prop :=
  match t with
  | Leaf l => ok_box (lbb l)
  | Node b a c => subbox (tbb a) b /\ subbox (tbb c) b /\ wf a /\ wf c
  end.
Definition wfo (t : option tree) : Prop := match t with None => True | Some t => wf t end.

Lemma wf_ok t : wf t -> ok_box (tbb t).
Proof. destruct t as [l|b a c]; cbn; auto. intros (Hs & _). eapply subbox_okr; eauto. Qed.
Lemma wf_leaf_sub t l : wf t -> In l (leaves t) -> subbox (lbb l) (tbb t).
Proof.
  induction t as [l'|b a IHa c IHc]; cbn.
  - intros H [->|[]]. now apply subbox_refl.
  - intros (H1 & H2 & Ha & Hc) HI. apply in_app_or in HI as [HI|HI];
    eapply subbox_trans; eauto.
Qed.
Lemma wf_leaf_ok t l : wf t -> In l (leaves t) -> ok_box (lbb l).
Proof. intros. eapply subbox_okl, wf_leaf_sub; eauto. Qed.

Lemma leaves_insert t l : Permutation (leaves (subtree_insert t l)) (l :: leaves t).
Proof.
  induction t as [l'|b a IHa c IHc]; cbn; [constructor; constructor; constructor|].
  destruct (go_b a c (lbb l)); cbn.
  - rewrite IHc. symmetry. apply Permutation_middle.
  - rewrite IHa. reflexivity.
Qed.
Lemma insert_bounded t l x : ok_box (lbb l) -> wf t -> subbox (tbb t) x -> subbox (lbb l) x ->
  subbox (tbb (subtree_insert t l)) x.
Proof.
  intros Hl Hw Ht Hx. destruct t as [l'|b a c]; cbn.
  - now apply merge_least.
  - destruct (go_b a c (lbb l)); cbn; now apply merge_least.
Qed.
Lemma wf_insert t l : ok_box (lbb l) -> wf t -> wf (subtree_insert t l).
Proof.
  intros Hl. induction t as [l'|b a IHa c IHc]; cbn.
  - intros Hw. sp; auto; try (now apply merge_l); now apply merge_r.
  - intros (H1 & H2 & Ha & Hc).
    assert (Hb : ok_box b) by (eapply subbox_okr; eauto).
    assert (Hm1 : subbox b (bb_merge b (lbb l))) by (now apply merge_l).
    assert (Hm2 : subbox (lbb l) (bb_merge b (lbb l))) by (now apply merge_r).
    destruct (go_b a c (lbb l)); cbn; sp; auto;
    try (eapply subbox_trans; eassumption);
    apply insert_bounded; auto; eapply subbox_trans; eauto.
Qed.
Lemma leaves_root_insert t l : Permutation (oleaves (root_insert t l)) (l :: oleaves t).
Proof. destruct t; cbn; [apply leaves_insert | reflexivity]. Qed.
Lemma wf_root_insert t l : ok_box (lbb l) -> wfo t -> wfo (root_insert t l).
Proof. destruct t; cbn; auto using wf_insert. Qed.

Lemma remove_none t id : subtree_remove t id = None -> ~ In id (map lid (leaves t)).
Proof.
  induction t as [l|b a IHa c IHc]; cbn.
  - destruct (lid l =? id) eqn:E; [discriminate|]. apply Nat.eqb_neq in E. intros _ [H|[]]; auto.
  - destruct (subtree_remove a id) as [[a'|]|]; try discriminate.
    destruct (subtree_remove c id) as [[c'|]|]; try discriminate.
    intros _ H. rewrite map_app in H. apply in_app_or in H as [H|H]; [now apply IHa|now apply IHc].
Qed.
Lemma remove_some t id r : subtree_remove t id = Some r ->
  exists l1 x l2, leaves t = l1 ++ x :: l2 /\ lid x = id /\ oleaves r = l1 ++ l2.
Proof.
  revert r. induction t as [l|b a IHa c IHc]; cbn; intros r.
  - destruct (lid l =? id) eqn:E; [|discriminate]. apply Nat.eqb_eq in E. intros [= <-].
    exists [], l, []. auto.
  - destruct (subtree_remove a id) as [[a'|]|] eqn:Ea.
    + intros [= <-]. destruct (IHa _ eq_refl) as (l1 & x & l2 & E1 & E2 & E3). cbn in *.
      exists l1, x, (l2 ++ leaves c). rewrite E1, E3, <- !app_assoc. auto.
    + intros [= <-]. destruct (IHa _ eq_refl) as (l1 & x & l2 & E1 & E2 & E3). cbn in *.
      exists l1, x, (l2 ++ leaves c). rewrite E1, <- app_assoc. sp; auto.
      rewrite app_assoc, <- E3. reflexivity.
    + destruct (subtree_remove c id) as [[c'|]|] eqn:Ec; intros [= <-];
      destruct (IHc _ eq_refl) as (l1 & x & l2 & E1 & E2 & E3); cbn in *.
      * exists (leaves a ++ l1), x, l2. rewrite E1, E3, <- !app_assoc. auto.
      * exists (leaves a ++ l1), x, l2. rewrite E1, <- !app_assoc. sp; auto.
        rewrite <- E3. now rewrite app_nil_r.
Qed.
Lemma wf_remove t id r : wf t -> subtree_remove t id = Some r -> wfo r.
Proof.
  revert r. induction t as [l|b a IHa c IHc]; cbn; intros r.
  - destruct (lid l =? id); [|discriminate]. intros _ [= <-]. exact I.
  - intros (H1 & H2 & Ha & Hc).
    destruct (subtree_remove a id) as [[a'|]|] eqn:Ea.
    + intros [= <-]. specialize (IHa _ Ha eq_refl). cbn in *. sp; auto.
      * apply merge_l; now apply wf_ok.
      * apply merge_r; now apply wf_ok.
    + intros [= <-]. exact Hc.
    + destruct (subtree_remove c id) as [[c'|]|] eqn:Ec; intros [= <-].
      * specialize (IHc _ Hc eq_refl). cbn in *. sp; auto.
        -- apply merge_l; now apply wf_ok.
        -- apply merge_r; now apply wf_ok.
      * exact Ha.
Qed.
Lemma wf_root_remove t id : wfo t -> wfo (root_remove t id).
Proof.
  destruct t as [t|]; cbn; auto. intros H. destruct (subtree_remove t id) eqn:E; cbn; auto.
  eapply wf_remove; eauto.
Qed.

Definition ids (t : option tree) : list nat := map lid (oleaves t).

(** removal deletes exactly the leaf of the object *)
Lemma leaves_root_remove t id : NoDup (ids t) ->
  oleaves (root_remove t id) = filter (fun l => negb (lid l =? id)) (oleaves t).
Proof.
  unfold ids. destruct t as [t|]; cbn; auto. intros Hn.
  destruct (subtree_remove t id) as [r|] eqn:E.
  - destruct (remove_some _ _ _ E) as (l1 & x & l2 & E1 & E2 & E3). rewrite E3, E1 in *.
    rewrite filter_app; cbn. rewrite E2, Nat.eqb_refl; cbn.
    rewrite map_app in Hn; cbn in Hn. apply NoDup_remove in Hn as [_ Hn]. rewrite E2 in Hn.
    rewrite !filter_all; auto; intros y Hy; apply negb_true_iff, Nat.eqb_neq; intros <-; apply Hn;
    apply in_or_app; [right|left]; now apply in_map.
  - cbn. symmetry. apply filter_all. intros y Hy. apply negb_true_iff, Nat.eqb_neq. intros <-.
    apply (remove_none _ _ E). now apply in_map.
Qed.

(** ** Queries return exactly the leaves whose stored box intersects *)
Lemma query_exact t q : wf t ->
  subtree_query t q = map lid (filter (fun l => bb_intersects (lbb l) q) (leaves t)).
Proof.
  induction t as [l|b a IHa c IHc]; cbn.
  - intros _. destruct (bb_intersects (lbb l) q); reflexivity.
  - intros (H1 & H2 & Ha & Hc). rewrite IHa, IHc by assumption. rewrite filter_app, map_app.
    destruct (bb_intersects b q) eqn:E; auto.
    assert (Hno : forall l, In l (leaves a) \/ In l (leaves c) -> bb_intersects (lbb l) q = false).
    { intros l Hl. destruct (bb_intersects (lbb l) q) eqn:E2; auto.
      rewrite (subbox_intersects (lbb l) b q) in E; auto.
      destruct Hl as [Hl|Hl]; (eapply subbox_trans; [eapply wf_leaf_sub; [|exact Hl]; assumption | assumption]). }
    rewrite !filter_none; auto.
Qed.

(** ** Marking is a flat map over leaves *)
Definition ev (l : leaf) (left : bool) (s : leaf) : list event :=
  if bb_intersects (lbb l) (lbb s) then
    if left then [Ins (lid l) (lid s)]
    else (if (lstamp s <? lstamp l)%nat then [Ins (lid s) (lid l)] else []) ++ [Rep (lid l) (lid s)]
  else [].
Lemma mlq_exact (t : tree) (l : leaf) left : wf t -> mark_leaf_query t l left = flat_map (ev l left) (leaves t).
Proof.
  induction t as [s|b a IHa c IHc]; cbn.
  - intros _. rewrite app_nil_r. unfold ev. destruct (bb_intersects (lbb l) (lbb s)); auto.
  - intros (H1 & H2 & Ha & Hc). rewrite IHa, IHc by assumption. rewrite flat_map_app.
    destruct (bb_intersects (lbb l) b) eqn:E; auto.
    assert (Hno : forall s, In s (leaves a) \/ In s (leaves c) -> ev l left s = []).
    { intros s Hs. unfold ev. destruct (bb_intersects (lbb l) (lbb s)) eqn:E2; auto.
      rewrite intersects_sym in E2. rewrite intersects_sym in E.
      rewrite (subbox_intersects (lbb s) b (lbb l)) in E; try discriminate; auto.
      destruct Hs as [Hs|Hs]; (eapply subbox_trans; [eapply wf_leaf_sub; [|exact Hs]; assumption | assumption]). }
    rewrite !flat_map_nil; auto.
Qed.

Lemma path_none (t : tree) id : ~ In id (map lid (leaves t)) -> path t id = None.
Proof.
  induction t as [l|b a IHa c IHc]; cbn.
  - intros H. destruct (lid l =? id) eqn:E; auto. apply Nat.eqb_eq in E. exfalso; auto.
  - intros H. rewrite map_app in H. rewrite IHa, IHc; auto; intros HI; apply H, in_or_app; auto.
Qed.
Lemma path_exact (t : tree) (x : leaf) L1 L2 : wf t -> leaves t = L1 ++ x :: L2 -> NoDup (map lid (leaves t)) ->
  exists p, path t (lid x) = Some p /\
  forall l, Permutation (flat_map (fun sb => mark_leaf_query (fst sb) l (snd sb)) p)
              (flat_map (ev l true) L2 ++ flat_map (ev l false) L1).
Proof.
  revert L1 L2. induction t as [s|b a IHa c IHc]; cbn; intros L1 L2 Hw E Hn.
  - destruct L1 as [|y [|z L1]]; cbn in E; try discriminate. injection E as -> <-.
    rewrite Nat.eqb_refl. exists []. split; auto. 
  - destruct Hw as (H1 & H2 & Ha & Hc). rewrite map_app in Hn.
    assert (Hna : NoDup (map lid (leaves a))) by (eapply nodup_app_l; eauto).
    assert (Hnc : NoDup (map lid (leaves c))) by (eapply nodup_app_r; eauto).
    (* split the list *)
    apply app_eq_app in E as (k & [[E1 E2]|[E1 E2]]).
    + (* leaves a = L1 ++ k, x :: L2 = k ++ leaves c *)
      destruct k as [|y k].
      * cbn in E2. rewrite app_nil_r in E1.
        destruct (IHc [] L2) as (p & Ep & Hp); auto.
        rewrite path_none; [|].
        2:{ rewrite E1. intros HI. rewrite E1 in Hn. rewrite <- E2 in Hn. cbn in Hn.
            apply NoDup_remove in Hn as [_ Hn]. apply Hn, in_or_app; auto. }
        rewrite Ep. exists (p ++ [(a, false)]). split; auto. intros l. rewrite flat_map_app, Hp; cbn.
        rewrite mlq_exact by assumption. rewrite E1. rewrite !app_nil_r. reflexivity.
      * cbn in E2. injection E2 as <- E2.
        destruct (IHa L1 k) as (p & Ep & Hp); auto. rewrite Ep.
        exists (p ++ [(c, true)]). split; auto. intros l. rewrite flat_map_app, Hp; cbn.
        rewrite mlq_exact by assumption. rewrite E2, flat_map_app, app_nil_r.
        rewrite <- !app_assoc. apply Permutation_app_head. apply Permutation_app_comm.
    + (* L1 = leaves a ++ k, leaves c = k ++ x :: L2 *)
      destruct (IHc k L2) as (p & Ep & Hp); auto.
      rewrite path_none; [|].
      2:{ rewrite E2 in Hn. intros HI.
          rewrite map_app in Hn; cbn in Hn. rewrite app_assoc in Hn. apply NoDup_remove in Hn as [_ Hn].
          apply Hn, in_or_app. left. apply in_or_app; auto. }
      rewrite Ep. exists (p ++ [(a, false)]). split; auto. intros l. rewrite flat_map_app, Hp; cbn.
      rewrite mlq_exact by assumption. rewrite E1, flat_map_app, app_nil_r.
      rewrite <- !app_assoc. apply Permutation_app_head. apply Permutation_app_comm.
Qed.
End Tree.
