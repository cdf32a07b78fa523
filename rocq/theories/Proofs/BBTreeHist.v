(** Histories of index operations keep the invariant; what queries and reindex passes report. *)
From Coq Require Import Reals ZArith Bool List Arith Lia Permutation.
From Verif Require Import Num Spec SpecIndex.
From Verif.Model Require Import Vector BB BBTree.
From Verif.Proofs Require Import Util BBOrder BBTreeInv BBTreePairs.
Import ListNotations.
Local Open Scope nat_scope.

Section Hist.
Ltac sp := repeat match goal with |- _ /\ _ => split end.
Context {T : Type} {NT : Num T} {OT : OrdNum T}.
Notation B := (BB T).
Notation tree := (tree T).
Notation leaf := (leaf T).
Notation index := (index T).
Notation env := (env T).

Lemma remove_absent (t : option tree) id : ~ In id (ids t) -> root_remove t id = t.
Proof.
  unfold ids. destruct t as [t|]; cbn; auto. intros Hn. destruct (subtree_remove t id) as [r|] eqn:E; auto.
  destruct (remove_some _ _ _ E) as (l1 & x & l2 & E1 & E2 & _). exfalso. apply Hn. rewrite E1, map_app.
  apply in_or_app; right; left; auto.
Qed.
Lemma clear_absent p id : (forall a b, In (a, b) p -> a <> id /\ b <> id) -> pairs_clear p id = p.
Proof.
  intros H. unfold pairs_clear. apply filter_all. intros [a b] Hq. apply H in Hq as [H1 H2].
  unfold touches; cbn. apply Nat.eqb_neq in H1, H2. now rewrite H1, H2.
Qed.

Definition neqid (id : nat) (l : leaf) : bool := negb (lid l =? id).
Definition place (d : bool) (s : index) (l : leaf) : index :=
  set_pairs (set_tree d s (root_insert (root_remove (get_tree d s) (lid l)) l)) (pairs_clear (pairs s) (lid l)).

Lemma neqid_true id l : neqid id l = true <-> lid l <> id.
Proof. unfold neqid. rewrite negb_true_iff, Nat.eqb_neq. tauto. Qed.

Lemma nodup_dyn (s : index) : NoDup (map lid (all s)) -> NoDup (ids (dyn s)).
Proof. unfold all. rewrite map_app. apply nodup_app_l. Qed.
Lemma nodup_sta (s : index) : NoDup (map lid (all s)) -> NoDup (ids (sta s)).
Proof. unfold all. rewrite map_app. apply nodup_app_r. Qed.
Lemma filter_neq_absent id (L : list leaf) : ~ In id (map lid L) -> filter (neqid id) L = L.
Proof.
  intros H. apply filter_all. intros l Hl. apply neqid_true. intros <-. apply H. now apply in_map.
Qed.

(** which leaves the index holds after placing [l] *)
Lemma place_tree d (s : index) (l : leaf) : NoDup (map lid (all s)) ->
  Permutation (oleaves (get_tree d (place d s l))) (l :: filter (neqid (lid l)) (oleaves (get_tree d s))).
Proof.
  intros Hn. unfold place. destruct d; cbn [get_tree set_tree set_pairs dyn sta]; rewrite leaves_root_insert, leaves_root_remove;
  auto using nodup_dyn, nodup_sta.
Qed.
Lemma place_all d (s : index) (l : leaf) : NoDup (map lid (all s)) -> ~ In (lid l) (ids (get_tree (negb d) s)) ->
  Permutation (all (place d s l)) (l :: filter (neqid (lid l)) (all s)).
Proof.
  intros Hn Ho. pose proof (place_tree d s l Hn) as Hp. unfold all, dleaves, sleaves in *.
  destruct d; cbn in *.
  - rewrite Hp. cbn. rewrite filter_app. rewrite (filter_neq_absent _ (oleaves (sta s))) by exact Ho. reflexivity.
  - rewrite Hp. rewrite filter_app. rewrite (filter_neq_absent _ (oleaves (dyn s))) by exact Ho.
    symmetry. apply Permutation_middle.
Qed.
Lemma place_dyn_in d (s : index) (l : leaf) (y : leaf) : NoDup (map lid (all s)) -> ~ In (lid l) (ids (get_tree (negb d) s)) ->
  In y (dleaves (place d s l)) -> (d = true /\ y = l) \/ (In y (dleaves s) /\ lid y <> lid l).
Proof.
  intros Hn Ho HI. pose proof (place_tree d s l Hn) as Hp. destruct d; cbn in *.
  - apply (Permutation_in _ Hp) in HI as [<-|HI]; auto. apply filter_In in HI as [H1 H2].
    apply neqid_true in H2. auto.
  - right. split; [exact HI|]. intros E. apply Ho. unfold ids. rewrite <- E. now apply in_map.
Qed.
Lemma place_dyn_keep d (s : index) (l : leaf) (y : leaf) : NoDup (map lid (all s)) ->
  In y (dleaves s) -> lid y <> lid l -> In y (dleaves (place d s l)).
Proof.
  intros Hn HI Hy. pose proof (place_tree d s l Hn) as Hp. destruct d; cbn in *; [|exact HI].
  apply (Permutation_in _ (Permutation_sym Hp)). right. apply filter_In. split; auto. now apply neqid_true.
Qed.
Lemma place_dyn_new (s : index) (l : leaf) : NoDup (map lid (all s)) -> In l (dleaves (place true s l)).
Proof.
  intros Hn. pose proof (place_tree true s l Hn) as Hp. apply (Permutation_in _ (Permutation_sym Hp)). now left.
Qed.
Lemma place_all_in d (s : index) (l : leaf) (y : leaf) : NoDup (map lid (all s)) -> ~ In (lid l) (ids (get_tree (negb d) s)) ->
  (In y (all (place d s l)) <-> y = l \/ (In y (all s) /\ lid y <> lid l)).
Proof.
  intros Hn Ho. pose proof (place_all d s l Hn Ho) as Hp. split; intros HI.
  - apply (Permutation_in _ Hp) in HI as [<-|HI]; auto. apply filter_In in HI as [H1 H2].
    apply neqid_true in H2. auto.
  - apply (Permutation_in _ (Permutation_sym Hp)). destruct HI as [->|[H1 H2]]; [now left|].
    right. apply filter_In. split; auto. now apply neqid_true.
Qed.

Lemma wf_get d (s : index) : PM s -> wfo (get_tree d s).
Proof. intros []. destruct d; auto. Qed.

Lemma PM_place d (s : index) (l : leaf) : PM s -> lstamp l = stamp s -> ok_box (lbb l) ->
  ~ In (lid l) (ids (get_tree (negb d) s)) -> PM (place d s l).
Proof.
  intros HP Hst Hok Ho. pose proof (pm_nodup s HP) as Hn.
  assert (Hst' : stamp (place d s l) = stamp s) by (destruct d; reflexivity).
  assert (Hpr : pairs (place d s l) = pairs_clear (pairs s) (lid l)) by (destruct d; reflexivity).
  assert (Hwg : wfo (get_tree d (place d s l))).
  { destruct d; cbn; apply wf_insert || apply wf_root_insert; auto; apply wf_root_remove; apply HP. }
  constructor.
  - destruct d; [exact Hwg|]. cbn. apply HP.
  - destruct d; [|exact Hwg]. cbn. apply HP.
  - pose proof (place_all d s l Hn Ho) as Hp. apply (Permutation_map lid) in Hp.
    eapply Permutation_NoDup; [apply Permutation_sym; exact Hp|]. cbn. constructor.
    + intros HI. apply in_map_iff in HI as (y & E & HI). apply filter_In in HI as [_ HI].
      apply neqid_true in HI. auto.
    + now apply nodup_map_filter.
  - intros y Hy. rewrite Hst'. apply place_all_in in Hy as [->|[Hy _]]; auto; [lia|]. now apply HP.
  - intros x y Hy Hx Hxy. rewrite Hpr. unfold fresh. rewrite Hst'.
    apply place_dyn_in in Hy; auto. apply place_all_in in Hx; auto.
    destruct Hy as [[Ed ->]|[Hy Hyl]].
    + rewrite clear_self. rewrite (proj2 (Nat.eqb_eq (lstamp l) (stamp s)) Hst), orb_true_r. reflexivity.
    + destruct Hx as [->|[Hx Hxl]].
      * rewrite cnt_sym, clear_self. rewrite (proj2 (Nat.eqb_eq (lstamp l) (stamp s)) Hst). reflexivity.
      * rewrite clear_other by auto. now apply HP.
  - intros a b HI. rewrite Hpr in HI. apply in_clear in HI as (HI & Ha & Hb). cbn in Ha, Hb.
    apply HP in HI as (H1 & H2 & H3). repeat split; auto.
    + apply in_map_iff in H1 as (y & <- & Hy). apply in_map. now apply place_dyn_keep.
    + apply in_map_iff in H2 as (y & <- & Hy). apply in_map. apply place_all_in; auto.
Qed.

Lemma remove_all d (s : index) id : NoDup (map lid (all s)) -> ~ In id (ids (get_tree (negb d) s)) ->
  all (ix_remove d s id) = filter (neqid id) (all s) /\ dleaves (ix_remove d s id) = filter (neqid id) (dleaves s).
Proof.
  intros Hn Ho. unfold all, dleaves, sleaves, ix_remove, set_pairs. rewrite filter_app.
  destruct d; cbn in *; rewrite leaves_root_remove by auto using nodup_dyn, nodup_sta.
  - rewrite (filter_neq_absent _ (oleaves (sta s))) by exact Ho. auto.
  - rewrite (filter_neq_absent _ (oleaves (dyn s))) by exact Ho. auto.
Qed.

Lemma PM_remove d (s : index) id : PM s -> ~ In id (ids (get_tree (negb d) s)) -> PM (ix_remove d s id).
Proof.
  intros HP Ho. pose proof (pm_nodup s HP) as Hn.
  destruct (remove_all d s id Hn Ho) as [Hal Hdl].
  assert (Hst' : stamp (ix_remove d s id) = stamp s) by (destruct d; reflexivity).
  assert (Hpr : pairs (ix_remove d s id) = pairs_clear (pairs s) id) by (destruct d; reflexivity).
  constructor.
  - destruct d; cbn; [apply wf_root_remove|]; apply HP.
  - destruct d; cbn; [|apply wf_root_remove]; apply HP.
  - rewrite Hal. now apply nodup_map_filter.
  - intros y Hy. rewrite Hst'. rewrite Hal in Hy. apply filter_In in Hy. apply HP. tauto.
  - intros x y Hy Hx Hxy. rewrite Hpr. unfold fresh. rewrite Hst'. rewrite Hal in Hx. rewrite Hdl in Hy.
    apply filter_In in Hx as [Hx Hx2]. apply filter_In in Hy as [Hy Hy2]. apply neqid_true in Hx2, Hy2.
    rewrite clear_other by auto. now apply HP.
  - intros a b HI. rewrite Hpr in HI. apply in_clear in HI as (HI & Ha & Hb). cbn in Ha, Hb.
    apply HP in HI as (H1 & H2 & H3). rewrite Hal, Hdl. repeat split; auto.
    + apply in_map_iff in H1 as (y & <- & Hy). apply in_map. apply filter_In. split; auto. now apply neqid_true.
    + apply in_map_iff in H2 as (y & <- & Hy). apply in_map. apply filter_In. split; auto. now apply neqid_true.
Qed.
Lemma Inv_remove d (s : index) id : Inv s -> ~ In id (ids (get_tree (negb d) s)) -> Inv (ix_remove d s id).
Proof.
  intros [HP Hs] Ho. split; [now apply PM_remove|]. destruct (remove_all d s id (pm_nodup s HP) Ho) as [Hal _].
  intros y Hy. rewrite Hal in Hy. apply filter_In in Hy as [Hy _].
  assert (stamp (ix_remove d s id) = stamp s) as -> by (destruct d; reflexivity). auto.
Qed.

(** After every pending pair has been inserted the stamp is advanced. *)
Lemma Inv_close (s : index) p' : PM s ->
  (forall x y, In y (dleaves s) -> In x (all s) -> lid x <> lid y ->
     cnt (lid x) (lid y) p' = if overlap x y then 1 else 0) ->
  (forall a b, In (a, b) p' -> In b (map lid (dleaves s)) /\ In a (map lid (all s)) /\ a <> b) ->
  Inv (inc_stamp (set_pairs s p')).
Proof.
  intros HP Hc Hm. assert (Hst : forall l, In l (all s) -> lstamp l < S (stamp s)).
  { intros l Hl. apply (pm_stamp s HP) in Hl. lia. }
  split; [|exact Hst]. constructor; try apply HP; auto.
  - intros l Hl. apply Hst in Hl. cbn. lia.
  - intros x y Hy Hx Hxy. cbn [pairs inc_stamp set_pairs]. unfold fresh. cbn [stamp inc_stamp set_pairs].
    rewrite Hc by assumption.
    assert (Hx' : In x (all s)) by exact Hx. assert (Hy' : In y (all s)) by (unfold all; apply in_or_app; left; exact Hy).
    apply Hst in Hx', Hy'.
    assert ((lstamp x =? S (stamp s)) = false) as -> by (apply Nat.eqb_neq; lia).
    assert ((lstamp y =? S (stamp s)) = false) as -> by (apply Nat.eqb_neq; lia). reflexivity.
Qed.

Lemma pm_nodup_d (s : index) d : dyn s = Some d -> PM s -> NoDup (map lid (leaves d ++ oleaves (sta s))).
Proof. intros E HP. pose proof (pm_nodup s HP) as Hn. unfold all, dleaves, sleaves in Hn. now rewrite E in Hn. Qed.

Lemma lid_inj (L : list leaf) x y : NoDup (map lid L) -> In x L -> In y L -> lid x = lid y -> x = y.
Proof.
  induction L as [|z L IH]; cbn; [tauto|]. intros Hn Hx Hy E. apply NoDup_cons_iff in Hn as [H1 H2].
  destruct Hx as [->|Hx], Hy as [->|Hy]; auto.
  - exfalso. apply H1. rewrite E. now apply in_map.
  - exfalso. apply H1. rewrite <- E. now apply in_map.
Qed.

(** one fresh dynamic leaf *)
Lemma add_dyn (s : index) z : PM s -> In z (dleaves s) -> lstamp z = stamp s ->
  (forall y, In y (all s) -> lid y <> lid z -> lstamp y < stamp s) ->
  Inv (inc_stamp (set_pairs s (leaf_add_pairs true s z))).
Proof.
  intros HP Hz Hf Hoth. unfold leaf_add_pairs.
  destruct (dyn s) as [d|] eqn:Ed; [|unfold dleaves in Hz; rewrite Ed in Hz; destruct Hz].
  pose proof (pm_nodup_d s d Ed HP) as Hn.
  assert (Hwd : wf d) by (pose proof (pm_wfd s HP) as H; rewrite Ed in H; exact H).
  assert (Hws : wfo (sta s)) by apply HP.
  assert (Hdl : dleaves s = leaves d) by (unfold dleaves; rewrite Ed; reflexivity).
  assert (Hal : all s = leaves d ++ oleaves (sta s)) by (unfold all, sleaves; now rewrite Hdl).
  pose proof Hz as Hz0. rewrite Hdl in Hz0. apply in_split in Hz0 as (A & C & E).
  apply Inv_close; auto.
  - intros x y Hy Hx Hxy. unfold cnt. rewrite filter_run_events, app_length, rev_length.
    assert (Hc : length (filter (same (lid x) (lid y)) (pairs s)) = if fresh s x || fresh s y then 0 else if overlap x y then 1 else 0)
      by (now apply HP).
    assert (Hzin : In z (all s)) by (unfold all; apply in_or_app; auto).
    assert (Hyin : In y (all s)) by (unfold all; apply in_or_app; auto).
    assert (Hside : forall w, In w (all s) -> lid w <> lid z ->
       exists lf, (lf = true /\ In w C \/ lf = false /\ (In w A \/ In w (oleaves (sta s))))).
    { intros w Hw Hwz. rewrite Hal, E in Hw. rewrite !in_app_iff in Hw; cbn in Hw.
      destruct Hw as [[Hw|[->|Hw]]|Hw]; [exists false|contradiction|exists true|exists false]; auto. }
    assert (Hone : forall w, In w (all s) -> lid w <> lid z ->
       length (inss (filter (evsame (lid z) (lid w)) (mark_leaf d (sta s) (stamp s) (pairs s) z))) = if overlap z w then 1 else 0).
    { intros w Hw Hwz. destruct (Hside w Hw Hwz) as [lf Hlf].
      destruct (mark_fresh_pair d (sta s) (stamp s) (pairs s) Hwd Hws Hn A z C w lf E Hf Hlf) as [-> _].
      unfold ev. fold (overlap z w). specialize (Hoth w Hw Hwz). destruct (overlap z w); auto.
      destruct lf; auto. rewrite ltb_lt_true by lia. reflexivity. }
    assert (Hevs : forall i j es, filter (evsame i j) es = filter (evsame j i) es).
    { intros. apply filter_ext. intros. unfold evsame. apply same_sym. }
    assert (Hfz : fresh s z = true) by (unfold fresh; rewrite Hf; apply Nat.eqb_refl).
    assert (Hfo : forall w, In w (all s) -> lid w <> lid z -> fresh s w = false).
    { intros w Hw Hwz. specialize (Hoth w Hw Hwz). unfold fresh. apply Nat.eqb_neq. lia. }
    destruct (Nat.eq_dec (lid x) (lid z)) as [Ex|Ex].
    { assert (x = z) by (apply (lid_inj (all s)); auto; apply HP). subst x.
      rewrite Hone by auto. rewrite Hc, Hfz. cbn [orb]. lia. }
    destruct (Nat.eq_dec (lid y) (lid z)) as [Ey|Ey].
    { assert (y = z) by (apply (lid_inj (all s)); auto; apply HP). subst y.
      rewrite Hevs, Hone by auto. rewrite Hc, Hfz, orb_true_r, (overlap_sym z x). lia. }
    rewrite mark_other; auto. 2:{ rewrite E. apply in_or_app; right; left; auto. }
    cbn [inss flat_map length Nat.add]. rewrite Hc, !Hfo by auto. reflexivity.
  - intros a b HI. rewrite run_events_eq in HI. apply in_app_or in HI as [HI|HI]; [|now apply HP].
    apply in_rev in HI. rewrite Hdl, Hal. eapply mark_inss_mem; eauto.
Qed.

(** one fresh static leaf *)
Lemma add_sta (s : index) z : PM s -> In z (sleaves s) -> lstamp z = stamp s ->
  (forall y, In y (all s) -> lid y <> lid z -> lstamp y < stamp s) ->
  Inv (inc_stamp (set_pairs s (leaf_add_pairs false s z))).
Proof.
  intros HP Hz Hf Hoth. unfold leaf_add_pairs.
  destruct (dyn s) as [d|] eqn:Ed.
  2:{ apply Inv_close; auto; [|apply HP]. intros x y Hy. unfold dleaves in Hy. rewrite Ed in Hy. destruct Hy. }
  pose proof (pm_nodup_d s d Ed HP) as Hn.
  assert (Hwd : wf d) by (pose proof (pm_wfd s HP) as H; rewrite Ed in H; exact H).
  assert (Hdl : dleaves s = leaves d) by (unfold dleaves; rewrite Ed; reflexivity).
  assert (Hal : all s = leaves d ++ oleaves (sta s)) by (unfold all, sleaves; now rewrite Hdl).
  assert (Hnz : forall w, In w (leaves d) -> lid w <> lid z).
  { intros w Hw Ew. rewrite map_app in Hn. apply nodup_app_iff in Hn as (_ & _ & Hn).
    apply (Hn (lid w)); [now apply in_map|]. rewrite Ew. now apply in_map. }
  rewrite mlq_exact by assumption.
  assert (Hnd : NoDup (map lid (leaves d))) by (rewrite map_app in Hn; eapply nodup_app_l; eauto).
  assert (Hzin : In z (all s)) by (unfold all; apply in_or_app; auto).
  apply Inv_close; auto.
  - intros x y Hy Hx Hxy. unfold cnt. rewrite filter_run_events, app_length, rev_length.
    assert (Hc : length (filter (same (lid x) (lid y)) (pairs s)) = if fresh s x || fresh s y then 0 else if overlap x y then 1 else 0)
      by (now apply HP).
    assert (Hyin : In y (all s)) by (unfold all; apply in_or_app; auto).
    assert (Hfz : fresh s z = true) by (unfold fresh; rewrite Hf; apply Nat.eqb_refl).
    assert (Hfo : forall w, In w (all s) -> lid w <> lid z -> fresh s w = false).
    { intros w Hw Hwz. specialize (Hoth w Hw Hwz). unfold fresh. apply Nat.eqb_neq. lia. }
    rewrite Hdl in Hy.
    destruct (Nat.eq_dec (lid x) (lid z)) as [Ex|Ex].
    { assert (x = z) by (apply (lid_inj (all s)); auto; apply HP). subst x.
      rewrite ev_filter_one by auto. rewrite Hc, Hfz. cbn [orb]. unfold ev. fold (overlap z y).
      destruct (overlap z y); reflexivity. }
    rewrite ev_filter_other; auto. 2:{ intros EE. apply (Hnz y Hy). auto. }
    cbn [inss flat_map length Nat.add]. rewrite Hc, !Hfo by auto. reflexivity.
  - intros a b HI. rewrite run_events_eq in HI. apply in_app_or in HI as [HI|HI]; [|now apply HP].
    apply in_rev in HI. unfold inss in HI. apply in_flat_map in HI as (e & He & HI).
    apply in_flat_map in He as (w & Hw & He). unfold ev in He.
    destruct (bb_intersects (lbb z) (lbb w)); [|destruct He]. destruct He as [<-|[]].
    destruct HI as [[= <- <-]|[]]. rewrite Hdl. repeat split; try (now apply in_map).
    intros EE. apply (Hnz w Hw). auto.
Qed.

Lemma Inv_place d (s : index) z : Inv s -> lstamp z = stamp s -> ok_box (lbb z) ->
  ~ In (lid z) (ids (get_tree (negb d) s)) ->
  Inv (inc_stamp (set_pairs (place d s z) (leaf_add_pairs d (place d s z) z))).
Proof.
  intros [HP Hs] Hst Hok Ho. pose proof (PM_place d s z HP Hst Hok Ho) as HP'.
  pose proof (pm_nodup s HP) as Hn.
  assert (Hst' : stamp (place d s z) = stamp s) by (destruct d; reflexivity).
  assert (Hoth : forall y, In y (all (place d s z)) -> lid y <> lid z -> lstamp y < stamp (place d s z)).
  { intros y Hy Hyz. rewrite Hst'. apply place_all_in in Hy as [->|[Hy _]]; auto. contradiction. }
  pose proof (place_tree d s z Hn) as Hp.
  destruct d; [apply add_dyn|apply add_sta]; auto; try (rewrite Hst'; exact Hst);
  apply (Permutation_in _ (Permutation_sym Hp)); now left.
Qed.

Lemma set_pairs_place d (s : index) z p : 
  set_pairs (place d s z) p = set_pairs (set_tree d s (root_insert (root_remove (get_tree d s) (lid z)) z)) p.
Proof. destruct d; reflexivity. Qed.

Lemma insert_place d e (s : index) id : PM s -> ~ In id (map lid (all s)) ->
  let z := mkLeaf id (get_bb d e id) (stamp s) in
  ix_insert d e s id = inc_stamp (set_pairs (place d s z) (leaf_add_pairs d (place d s z) z)).
Proof.
  intros HP Hid z. unfold ix_insert. fold z.
  assert (Hr : root_remove (get_tree d s) id = get_tree d s).
  { apply remove_absent. intros HI. apply Hid. unfold all. rewrite map_app. apply in_or_app. destruct d; auto. }
  assert (Hp : pairs_clear (pairs s) id = pairs s).
  { apply clear_absent. intros a b HI. apply HP in HI as (H1 & H2 & _). split; intros ->; apply Hid; auto.
    unfold all. rewrite map_app. apply in_or_app; auto. }
  assert (E : place d s z = set_tree d s (root_insert (get_tree d s) z)).
  { unfold place. cbn [lid z]. rewrite Hr, Hp. destruct d; reflexivity. }
  now rewrite E.
Qed.


Lemma Inv_insert d e (s : index) id : env_ok e -> Inv s -> ~ In id (map lid (all s)) -> Inv (ix_insert d e s id).
Proof.
  intros He HI Hid. rewrite insert_place by (auto; apply HI). apply Inv_place; auto.
  - exact (subbox_okr _ _ (He d id)).
  - cbn. intros H. apply Hid. unfold all. rewrite map_app. apply in_or_app. destruct d; cbn in H; auto.
Qed.

Lemma find_leaf_in (t : option tree) id l : find_leaf t id = Some l -> In l (oleaves t) /\ lid l = id.
Proof. unfold find_leaf. intros H. apply find_some in H as [H1 H2]. apply Nat.eqb_eq in H2. auto. Qed.
Lemma find_leaf_none (t : option tree) id : find_leaf t id = None -> ~ In id (ids t).
Proof.
  unfold find_leaf, ids. intros H HI. apply in_map_iff in HI as (l & E & HI).
  apply (find_none _ _ H) in HI. apply Nat.eqb_neq in HI. auto.
Qed.

(** what an update does *)
Lemma leaf_update_spec d e (s : index) id :
  let '(s1, moved) := leaf_update d e s id in
  (moved = None /\ s1 = s /\ forall l, find_leaf (get_tree d s) id = Some l -> subbox (cur e id) (lbb l)) \/
  (exists l, find_leaf (get_tree d s) id = Some l /\
    moved = Some (mkLeaf id (get_bb d e id) (stamp s)) /\ s1 = place d s (mkLeaf id (get_bb d e id) (stamp s))).
Proof.
  unfold leaf_update. destruct (find_leaf (get_tree d s) id) as [l|] eqn:E.
  - destruct (bb_contains (lbb l) (cur e id)) eqn:Ec.
    + left. sp; auto. intros l' [= ->]. now apply contains_subbox.
    + right. exists l. sp; auto. destruct d; reflexivity.
  - left. sp; auto. discriminate.
Qed.

Lemma other_absent d (s : index) id : NoDup (map lid (all s)) -> In id (ids (get_tree d s)) ->
  ~ In id (ids (get_tree (negb d) s)).
Proof.
  unfold all. rewrite map_app. intros Hn H H'. apply nodup_app_iff in Hn as (_ & _ & Hn).
  destruct d; cbn in *; eapply Hn; eauto.
Qed.
Lemma find_ids d (s : index) id l : find_leaf (get_tree d s) id = Some l -> In id (ids (get_tree d s)).
Proof. intros H. apply find_leaf_in in H as [H <-]. now apply in_map. Qed.

Lemma Inv_inc (s : index) : Inv s -> Inv (inc_stamp s).
Proof.
  intros [HP Hs]. assert (E : inc_stamp s = inc_stamp (set_pairs s (pairs s))) by (destruct s; reflexivity).
  rewrite E. apply Inv_close; auto; [|apply HP]. intros x y Hy Hx Hxy.
  rewrite (pm_cache s HP x y Hy Hx Hxy). unfold fresh.
  assert (Hy' : In y (all s)) by (unfold all; apply in_or_app; auto). apply Hs in Hx, Hy'.
  assert ((lstamp x =? stamp s) = false) as -> by (apply Nat.eqb_neq; lia).
  assert ((lstamp y =? stamp s) = false) as -> by (apply Nat.eqb_neq; lia). reflexivity.
Qed.

Lemma Inv_reindex_object d e (s : index) id : env_ok e -> Inv s -> Inv (ix_reindex_object d e s id).
Proof.
  intros He HI. unfold ix_reindex_object. destruct (find_leaf (get_tree d s) id) as [l|] eqn:E; auto.
  pose proof (leaf_update_spec d e s id) as Hu. destruct (leaf_update d e s id) as [s1 moved].
  destruct Hu as [(-> & -> & _)|(l' & El & -> & ->)]; [now apply Inv_inc|].
  apply Inv_place; auto.
  - exact (subbox_okr _ _ (He d id)).
  - cbn. apply other_absent; [apply HI|]. eapply find_ids; eauto.
Qed.

(** the update loop of a reindex pass *)
Definition updates e (order : list nat) (s : index) : index :=
  fold_left (fun s id => fst (leaf_update true e s id)) order s.

Lemma update_one e (s : index) id : env_ok e -> PM s ->
  let s1 := fst (leaf_update true e s id) in
  PM s1 /\ sta s1 = sta s /\ stamp s1 = stamp s /\
  (forall i, In i (ids (dyn s1)) <-> In i (ids (dyn s))) /\
  (forall l, In l (dleaves s1) -> lid l = id -> subbox (cur e id) (lbb l)) /\
  (forall l, In l (dleaves s1) -> lid l <> id -> In l (dleaves s)).
Proof.
  intros He HP. pose proof (leaf_update_spec true e s id) as Hu. destruct (leaf_update true e s id) as [s1 moved].
  cbn zeta. cbn [fst]. pose proof (pm_nodup s HP) as Hn.
  destruct Hu as [(-> & -> & Hc)|(l' & El & -> & ->)].
  - sp; auto; [tauto|]. intros l Hl El. destruct (find_leaf (get_tree true s) id) as [l'|] eqn:Ef.
    + destruct (find_leaf_in _ _ _ Ef) as [H1 H2]. assert (l = l') as ->; auto.
      apply (lid_inj (oleaves (dyn s))); auto; [now apply nodup_dyn|congruence].
    + exfalso. apply (find_leaf_none _ _ Ef). rewrite <- El. now apply in_map.
  - set (z := mkLeaf id (get_bb true e id) (stamp s)).
    assert (Ho : ~ In (lid z) (ids (get_tree (negb true) s))) by (apply other_absent; auto; eapply find_ids; eauto).
    sp.
    + apply PM_place; auto. exact (subbox_okr _ _ (He true id)).
    + reflexivity.
    + reflexivity.
    + intros i. unfold ids. pose proof (place_tree true s z Hn) as Hp. cbn [get_tree] in Hp.
      apply (Permutation_map lid) in Hp. split; intros HI.
      * apply (Permutation_in _ Hp) in HI as [<-|HI]; [cbn; eapply (find_ids true); eauto|].
        apply in_map_iff in HI as (y & <- & Hy). apply filter_In in Hy as [Hy _]. now apply in_map.
      * apply (Permutation_in _ (Permutation_sym Hp)). destruct (Nat.eq_dec i (lid z)) as [->|Hne]; [now left|].
        right. apply in_map_iff in HI as (y & <- & Hy). apply in_map. apply filter_In. split; auto. now apply neqid_true.
    + intros l Hl Eid. apply place_dyn_in in Hl as [[_ ->]|[_ Hl]]; auto; [apply He|contradiction].
    + intros l Hl Hid. apply place_dyn_in in Hl as [[_ ->]|[Hl _]]; auto. contradiction.
Qed.

Lemma updates_spec e order : env_ok e -> forall (s : index) done, PM s ->
  (forall l, In l (dleaves s) -> In (lid l) done -> subbox (cur e (lid l)) (lbb l)) ->
  let s1 := updates e order s in
  PM s1 /\ sta s1 = sta s /\ stamp s1 = stamp s /\
  (forall i, In i (ids (dyn s1)) <-> In i (ids (dyn s))) /\
  (forall l, In l (dleaves s1) -> In (lid l) done \/ In (lid l) order -> subbox (cur e (lid l)) (lbb l)).
Proof.
  intros He. induction order as [|id order IH]; cbn; intros s done HP Hd.
  - sp; auto; [tauto|]. intros l Hl [H|[]]; auto.
  - destruct (update_one e s id He HP) as (H1 & H2 & H3 & H4 & H5 & H6).
    set (s' := fst (leaf_update true e s id)) in *.
    destruct (IH s' (id :: done) H1) as (K1 & K2 & K3 & K4 & K5).
    { intros l Hl Hin. destruct (Nat.eq_dec (lid l) id) as [E|E]; [rewrite E; auto|].
      destruct Hin as [Hin|Hin]; [congruence|]. auto. }
    sp.
    + exact K1.
    + unfold updates in *. congruence.
    + unfold updates in *. congruence.
    + intros i. fold (updates e order s'). rewrite K4, H4. tauto.
    + intros l Hl Hin. apply K5; auto. cbn. tauto.
Qed.

(** The whole pass. *)
Lemma reindex_query_spec e order (s : index) : env_ok e -> Inv s ->
  (forall i, In i (ids (dyn s)) -> In i order) ->
  let '(s', rep) := ix_reindex_query e order s in
  Inv s' /\ sta s' = sta s /\
  (forall i, In i (ids (dyn s')) <-> In i (ids (dyn s))) /\
  (forall l, In l (dleaves s') -> subbox (cur e (lid l)) (lbb l)) /\
  (forall x y, In y (dleaves s') -> In x (all s') -> lid x <> lid y ->
      cnt (lid x) (lid y) rep = if overlap x y then 1 else 0) /\
  (forall a b, In (a, b) rep ->
    In a (map lid (all s')) /\ In b (map lid (all s')) /\ a <> b /\
    (In a (map lid (dleaves s')) \/ In b (map lid (dleaves s')))).
Proof.
  intros He [HP Hs] Hord. unfold ix_reindex_query.
  destruct (dyn s) as [d0|] eqn:Ed0.
  2:{ assert (Hdn : dleaves s = []) by (unfold dleaves; now rewrite Ed0). sp.
      - split; auto.
      - reflexivity.
      - intros i. rewrite Ed0. tauto.
      - intros l Hl. rewrite Hdn in Hl. destruct Hl.
      - intros x y Hy. rewrite Hdn in Hy. destruct Hy.
      - intros a b []. }
  destruct (updates_spec e order He s [] HP) as (P1 & E1 & E2 & E3 & E4); [intros l _ []|].
  fold (updates e order s). set (s1 := updates e order s) in *.
  destruct (dyn s1) as [d|] eqn:Ed.
  2:{ exfalso. rewrite Ed0 in E3. destruct d0; cbn in E3.
      - destruct (E3 (lid l)) as [_ H]. apply H. now left.
      - assert (exists l, In l (leaves d0_1)) as [l Hl].
        { clear. induction d0_1; cbn; [eexists; left; reflexivity|]. destruct IHd0_1_1 as [l Hl]. exists l. apply in_or_app; auto. }
        destruct (E3 (lid l)) as [_ H]. apply H. unfold ids; cbn. apply in_map, in_or_app; auto. }
  pose proof (pm_nodup_d s1 d Ed P1) as Hn.
  assert (Hwd : wf d) by (pose proof (pm_wfd s1 P1) as H; rewrite Ed in H; exact H).
  assert (Hws : wfo (sta s1)) by apply P1.
  assert (Hdl : dleaves s1 = leaves d) by (unfold dleaves; rewrite Ed; reflexivity).
  assert (Hal : all s1 = leaves d ++ oleaves (sta s1)) by (unfold all, sleaves; now rewrite Hdl).
  assert (Hmem : forall a b, In (a, b) (pairs s1) -> In b (map lid (leaves d)) /\ In a (map lid (leaves d ++ oleaves (sta s1))) /\ a <> b).
  { intros a b HI. rewrite <- Hal, <- Hdl. now apply P1. }
  assert (Hpair : let '(p', rep) := mark_subtree d (sta s1) (stamp s1) (pairs s1) in
     forall x y, In y (dleaves s1) -> In x (all s1) -> lid x <> lid y ->
      cnt (lid x) (lid y) p' = (if overlap x y then 1 else 0) /\
      cnt (lid x) (lid y) rep = (if overlap x y then 1 else 0)).
  { destruct (mark_subtree d (sta s1) (stamp s1) (pairs s1)) as [p' rep] eqn:Em.
    assert (Hdd : forall A x M y C, leaves d = A ++ x :: M ++ y :: C -> lid x <> lid y ->
       cnt (lid x) (lid y) p' = (if overlap x y then 1 else 0) /\
       cnt (lid x) (lid y) rep = (if overlap x y then 1 else 0)).
    { intros A x M y C E Hxy.
      assert (Hx : In x (dleaves s1)) by (rewrite Hdl, E; apply in_or_app; right; left; auto).
      assert (Hy : In y (dleaves s1)) by (rewrite Hdl, E; apply in_or_app; right; right; apply in_or_app; right; left; auto).
      assert (Hx' : In x (all s1)) by (unfold all; apply in_or_app; auto).
      assert (Hy' : In y (all s1)) by (unfold all; apply in_or_app; auto).
      pose proof (mark_pair_dyn d (sta s1) (stamp s1) (pairs s1) A x M y C Hwd Hws Hn E
        (pm_stamp s1 P1 x Hx') (pm_stamp s1 P1 y Hy') (pm_cache s1 P1 x y Hy Hx' Hxy)) as H.
      rewrite Em in H. exact H. }
    intros x y Hy Hx Hxy. rewrite Hal in Hx. apply in_app_or in Hx as [Hx|Hx].
    - rewrite Hdl in Hy. apply in_split in Hy as (L1 & L2 & E). rewrite E in Hx.
      apply in_app_or in Hx as [Hx|[->|Hx]]; [|contradiction|].
      + apply in_split in Hx as (A & M & ->). rewrite <- app_assoc in E; cbn in E. eapply Hdd; eauto.
      + apply in_split in Hx as (M & C & ->). rewrite overlap_sym, !(cnt_sym (lid x)). eapply Hdd; eauto.
    - assert (Hsx : lstamp x < stamp s1).
      { rewrite E2. apply Hs. unfold all. apply in_or_app; right. unfold sleaves. rewrite <- E1. exact Hx. }
      assert (Hy2 : In y (all s1)) by (unfold all; apply in_or_app; auto).
      assert (Hx2 : In x (all s1)) by (unfold all, sleaves; apply in_or_app; auto).
      pose proof Hy as Hy3. rewrite Hdl in Hy3. apply in_split in Hy3 as (A & C & E).
      pose proof (mark_pair_sta d (sta s1) (stamp s1) (pairs s1) A y C x Hwd Hws Hn E Hx Hsx
         (pm_stamp s1 P1 y Hy2) (pm_cache s1 P1 x y Hy Hx2 Hxy)) as H.
      rewrite Em in H. apply H. intros a b HI. now apply Hmem in HI. }
  pose proof (mark_subtree_mem d (sta s1) (stamp s1) (pairs s1) Hwd Hws Hn Hmem) as Hm1.
  pose proof (mark_reports_mem d (sta s1) (stamp s1) (pairs s1) Hwd Hws Hn Hmem) as Hm2.
  destruct (mark_subtree d (sta s1) (stamp s1) (pairs s1)) as [p' rep].
  assert (Hall' : all (inc_stamp (set_pairs s1 p')) = all s1) by reflexivity.
  assert (Hdl' : dleaves (inc_stamp (set_pairs s1 p')) = dleaves s1) by reflexivity.
  rewrite Hall', Hdl'. sp.
  - apply Inv_close; auto.
    + intros x y Hy Hx Hxy. now apply Hpair.
    + rewrite Hal, Hdl. exact Hm1.
  - exact E1.
  - intros i. cbn [dyn inc_stamp set_pairs]. rewrite Ed. rewrite E3, Ed0. tauto.
  - intros l Hl. apply E4; auto. right. apply Hord. rewrite <- Ed0. apply E3. rewrite Hdl in Hl. now apply (in_map lid) in Hl.
  - intros x y Hy Hx Hxy. now apply Hpair.
  - rewrite Hal, Hdl. exact Hm2.
Qed.

Lemma Inv_empty : Inv (empty_index (T := T)).
Proof. split; [|intros l []]. constructor; cbn; auto; try constructor; try (intros; contradiction). Qed.
End Hist.
