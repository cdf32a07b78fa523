(** The pair cache: invariant over histories, and exactly-once reporting of overlapping pairs. *)
From Coq Require Import Reals ZArith Bool List Arith Lia Permutation.
From Verif Require Import Num Spec.
From Verif.Model Require Import Vector BB BBTree.
From Verif.Proofs Require Import Util BBOrder BBTreeInv.
Import ListNotations.
Local Open Scope nat_scope.

Definition same (i j : nat) (p : nat * nat) : bool :=
  ((fst p =? i) && (snd p =? j)) || ((fst p =? j) && (snd p =? i)).
Definition cnt (i j : nat) (p : list (nat * nat)) : nat := length (filter (same i j) p).
Definition evp (e : event) : nat * nat := match e with Ins a b => (a, b) | Rep a b => (a, b) end.
Definition evsame (i j : nat) (e : event) : bool := same i j (evp e).
Definition inss (es : list event) : list (nat * nat) :=
  flat_map (fun e => match e with Ins a b => [(a, b)] | Rep _ _ => [] end) es.

Lemma same_sym i j p : same i j p = same j i p.
Proof. unfold same. apply orb_comm. Qed.
Lemma cnt_sym i j p : cnt i j p = cnt j i p.
Proof. unfold cnt. f_equal. apply filter_ext. intros; apply same_sym. Qed.
Lemma same_true i j p : same i j p = true <-> p = (i, j) \/ p = (j, i).
Proof.
  unfold same. destruct p as [a b]; cbn. rewrite orb_true_iff, !andb_true_iff, !Nat.eqb_eq.
  split; [intros [[-> ->]|[-> ->]]; auto | intros [[= -> ->]|[= -> ->]]; auto].
Qed.
Lemma same_touch_l i j p : same i j p = true -> touches i p = true.
Proof.
  rewrite same_true. unfold touches. intros [->| ->]; cbn; rewrite Nat.eqb_refl; auto using orb_true_r.
Qed.
Lemma same_touch_r i j p : same i j p = true -> touches j p = true.
Proof. rewrite same_sym. apply same_touch_l. Qed.

Lemma inss_app a b : inss (a ++ b) = inss a ++ inss b.
Proof. apply flat_map_app. Qed.
Lemma reports_app a b : reports (a ++ b) = reports a ++ reports b.
Proof. apply flat_map_app. Qed.
Lemma filter_inss i j es : filter (same i j) (inss es) = inss (filter (evsame i j) es).
Proof.
  induction es as [|e es IH]; auto. unfold inss in *; cbn. rewrite filter_app, IH.
  destruct e as [a b|a b]; cbn; unfold evsame; cbn; destruct (same i j (a, b)); cbn; auto.
Qed.
Lemma filter_reports i j es : filter (same i j) (reports es) = reports (filter (evsame i j) es).
Proof.
  induction es as [|e es IH]; auto. unfold reports in *; cbn. rewrite filter_app, IH.
  destruct e as [a b|a b]; cbn; unfold evsame; cbn; destruct (same i j (a, b)); cbn; auto.
Qed.
Lemma run_events_eq es p : run_events p es = rev (inss es) ++ p.
Proof.
  revert p. induction es as [|e es IH]; intros p; auto. unfold run_events in *; cbn. rewrite IH.
  destruct e as [a b|a b]; cbn; auto. now rewrite <- app_assoc.
Qed.
Lemma filter_rev {A} (f : A -> bool) l : filter f (rev l) = rev (filter f l).
Proof.
  induction l as [|x l IH]; cbn; auto. rewrite filter_app, IH; cbn. destruct (f x); cbn; auto using app_nil_r.
Qed.
Lemma filter_run_events i j es p :
  filter (same i j) (run_events p es) = rev (inss (filter (evsame i j) es)) ++ filter (same i j) p.
Proof. rewrite run_events_eq, filter_app, filter_rev, filter_inss. reflexivity. Qed.

Lemma clear_other i j id p : i <> id -> j <> id -> cnt i j (pairs_clear p id) = cnt i j p.
Proof.
  intros Hi Hj. unfold cnt, pairs_clear. rewrite filter_filter. f_equal. apply filter_ext.
  intros q. destruct (same i j q) eqn:E; cbn; auto. apply same_true in E.
  apply negb_true_iff. unfold touches. destruct E as [->| ->]; cbn; rewrite orb_false_iff, !Nat.eqb_neq; auto.
Qed.
Lemma clear_self i id p : cnt i id (pairs_clear p id) = 0.
Proof.
  unfold cnt, pairs_clear. rewrite filter_filter. rewrite filter_none; auto.
  intros q _. destruct (same i id q) eqn:E; cbn; auto. apply same_touch_r in E. now rewrite E.
Qed.
Lemma in_clear q id p : In q (pairs_clear p id) -> In q p /\ fst q <> id /\ snd q <> id.
Proof.
  unfold pairs_clear. rewrite filter_In, negb_true_iff. unfold touches.
  rewrite orb_false_iff, !Nat.eqb_neq. tauto.
Qed.

Section Pairs.
Context {T : Type} {NT : Num T} {OT : OrdNum T}.
Notation B := (BB T).
Notation tree := (tree T).
Notation leaf := (leaf T).
Notation index := (index T).
Notation env := (env T).

Definition overlap (x y : leaf) : bool := bb_intersects (lbb x) (lbb y).
Lemma overlap_sym x y : overlap x y = overlap y x.
Proof. apply intersects_sym. Qed.

Definition dleaves (s : index) := oleaves (dyn s).
Definition sleaves (s : index) := oleaves (sta s).
Definition all (s : index) := dleaves s ++ sleaves s.
Definition fresh (s : index) (l : leaf) : bool := lstamp l =? stamp s.

Record PM (s : index) : Prop := {
  pm_wfd : wfo (dyn s);
  pm_wfs : wfo (sta s);
  pm_nodup : NoDup (map lid (all s));
  pm_stamp : forall l, In l (all s) -> lstamp l <= stamp s;
  pm_cache : forall x y, In y (dleaves s) -> In x (all s) -> lid x <> lid y ->
    cnt (lid x) (lid y) (pairs s) =
      if fresh s x || fresh s y then 0 else if overlap x y then 1 else 0;
  pm_mem : forall a b, In (a, b) (pairs s) ->
    In b (map lid (dleaves s)) /\ In a (map lid (all s)) /\ a <> b;
}.
Definition Inv (s : index) : Prop := PM s /\ forall l, In l (all s) -> lstamp l < stamp s.

Lemma ev_pair (z : leaf) lf s e : In e (ev z lf s) -> evp e = (lid z, lid s) \/ evp e = (lid s, lid z).
Proof.
  unfold ev. destruct (bb_intersects _ _); [|intros []].
  destruct lf; [intros [<-|[]]; auto|]. destruct (lstamp s <? lstamp z); cbn; intros H; decompose [or] H; subst; auto; contradiction.
Qed.
(** events of a leaf concern only that leaf *)
Lemma ev_filter_other (z : leaf) lf L i j : lid z <> i -> lid z <> j ->
  filter (evsame i j) (flat_map (ev z lf) L) = [].
Proof.
  intros Hi Hj. apply filter_none. intros e He. apply in_flat_map in He as (s & _ & He).
  apply ev_pair in He. unfold evsame. destruct (same i j (evp e)) eqn:E; auto.
  apply same_true in E. destruct He as [He|He]; rewrite He in E; destruct E as [E|E]; congruence.
Qed.
Lemma ev_filter_absent (z : leaf) lf L j : lid z <> j -> ~ In j (map lid L) ->
  filter (evsame (lid z) j) (flat_map (ev z lf) L) = [].
Proof.
  intros Hj Hn. apply filter_none. intros e He. apply in_flat_map in He as (s & Hs & He).
  apply ev_pair in He. unfold evsame. destruct (same (lid z) j (evp e)) eqn:E; auto.
  apply same_true in E. exfalso. apply Hn. apply in_map_iff. exists s. split; auto.
  destruct He as [He|He]; rewrite He in E; destruct E as [E|E]; congruence.
Qed.
Lemma ev_filter_one (z : leaf) lf L w : lid z <> lid w -> NoDup (map lid L) -> In w L ->
  filter (evsame (lid z) (lid w)) (flat_map (ev z lf) L) = ev z lf w.
Proof.
  intros Hzw Hn Hw. apply in_split in Hw as (L1 & L2 & ->).
  rewrite map_app in Hn; cbn in Hn. apply NoDup_remove in Hn as [_ Hn].
  rewrite flat_map_app; cbn. rewrite !filter_app.
  rewrite !ev_filter_absent; auto; try (intros HI; apply Hn, in_or_app; auto).
  rewrite app_nil_r; cbn. apply filter_all. intros e He. apply ev_pair in He. unfold evsame. apply same_true.
  destruct He as [He|He]; rewrite He; auto.
Qed.

Lemma ev_inss_len (z : leaf) lf w : length (inss (ev z lf w)) <= 1.
Proof.
  unfold ev. destruct (bb_intersects _ _); [destruct lf; [|destruct (lstamp w <? lstamp z)]|]; cbn; lia.
Qed.
Lemma ev_reports_len (z : leaf) lf w : length (reports (ev z lf w)) <= 1.
Proof.
  unfold ev. destruct (bb_intersects _ _); [destruct lf; [|destruct (lstamp w <? lstamp z)]|]; cbn; lia.
Qed.
Lemma perm_short {A} (l1 l2 : list A) : length l2 <= 1 -> Permutation l1 l2 -> l1 = l2.
Proof.
  intros Hl Hp. destruct l2 as [|a [|b l2]]; cbn in Hl; try lia.
  - apply Permutation_sym, Permutation_nil in Hp. auto.
  - apply Permutation_sym, Permutation_length_1_inv in Hp. auto.
Qed.

(** What marking a fresh leaf does to one pair. *)
Section MarkFresh.
Variables (d : tree) (st : option tree) (S : nat) (p : list (nat * nat)).
Hypothesis Hwd : wf d.
Hypothesis Hws : wfo st.
Hypothesis Hnd : NoDup (map lid (leaves d ++ oleaves st)).

Lemma mark_fresh_perm A z C : leaves d = A ++ z :: C -> lstamp z = S ->
  Permutation (mark_leaf d st S p z)
    (flat_map (ev z false) (oleaves st) ++ flat_map (ev z true) C ++ flat_map (ev z false) A).
Proof.
  intros E Hf. unfold mark_leaf. rewrite Hf, Nat.eqb_refl.
  destruct (path_exact d z A C Hwd E) as (q & Eq & Hq).
  { rewrite map_app in Hnd. eapply nodup_app_l; eauto. }
  rewrite Eq. apply Permutation_app.
  - destruct st; cbn in *; auto. rewrite mlq_exact by assumption. reflexivity.
  - apply Hq.
Qed.

Lemma nodup_parts A z C : leaves d = A ++ z :: C ->
  NoDup (map lid A) /\ NoDup (map lid C) /\ NoDup (map lid (oleaves st)) /\
  ~ In (lid z) (map lid A) /\ ~ In (lid z) (map lid C) /\ ~ In (lid z) (map lid (oleaves st)) /\
  (forall i, In i (map lid A) -> ~ In i (map lid C)) /\
  (forall i, In i (map lid A) -> ~ In i (map lid (oleaves st))) /\
  (forall i, In i (map lid C) -> ~ In i (map lid (oleaves st))).
Proof.
  intros E. pose proof Hnd as H. rewrite E, !map_app in H; cbn in H.
  rewrite <- app_assoc in H; cbn in H.
  apply nodup_app_iff in H as (H1 & H2 & H3). apply NoDup_cons_iff in H2 as (H4 & H5).
  apply nodup_app_iff in H5 as (H6 & H7 & H8).
  assert (forall i, In i (map lid A) -> i <> lid z /\ ~ In i (map lid C) /\ ~ In i (map lid (oleaves st))).
  { intros i Hi. specialize (H3 i Hi). cbn in H3. rewrite in_app_iff in H3. repeat split; intros HH; apply H3; auto. }
  rewrite in_app_iff in H4.
  repeat split; auto; try (intros i Hi; apply H in Hi; tauto); try tauto.
  intros Hi. apply H in Hi. tauto.
Qed.

(** the other leaf [w], and whether it sits to the right of [z] *)
Lemma mark_fresh_pair A z C w lf : leaves d = A ++ z :: C -> lstamp z = S ->
  (lf = true /\ In w C \/ lf = false /\ (In w A \/ In w (oleaves st))) ->
  let es := filter (evsame (lid z) (lid w)) (mark_leaf d st S p z) in
  inss es = inss (ev z lf w) /\ reports es = reports (ev z lf w).
Proof.
  intros E Hf Hw. cbn zeta.
  destruct (nodup_parts A z C E) as (N1 & N2 & N3 & M1 & M2 & M3 & X1 & X2 & X3).
  assert (Hp : Permutation (filter (evsame (lid z) (lid w)) (mark_leaf d st S p z)) (ev z lf w)).
  { rewrite (filter_perm _ _ _ (mark_fresh_perm A z C E Hf)). rewrite !filter_app.
    destruct Hw as [[-> Hw]|[-> [Hw|Hw]]].
    - assert (lid z <> lid w) by (intros EE; apply M2; rewrite EE; now apply in_map).
      assert (In (lid w) (map lid C)) by (now apply in_map).
      rewrite (ev_filter_absent z false (oleaves st)) by (auto; apply X3; auto).
      rewrite (ev_filter_absent z false A) by (auto; intros HH; now apply X1 in HH).
      rewrite ev_filter_one by assumption. rewrite app_nil_r. reflexivity.
    - assert (lid z <> lid w) by (intros EE; apply M1; rewrite EE; now apply in_map).
      assert (In (lid w) (map lid A)) by (now apply in_map).
      rewrite (ev_filter_absent z false (oleaves st)) by (auto; apply X2; auto).
      rewrite (ev_filter_absent z true C) by (auto; apply X1; auto).
      rewrite ev_filter_one by assumption. reflexivity.
    - assert (lid z <> lid w) by (intros EE; apply M3; rewrite EE; now apply in_map).
      assert (In (lid w) (map lid (oleaves st))) by (now apply in_map).
      rewrite (ev_filter_absent z false A) by (auto; intros HH; now apply X2 in HH).
      rewrite (ev_filter_absent z true C) by (auto; intros HH; now apply X3 in HH).
      rewrite ev_filter_one by assumption. rewrite !app_nil_r. reflexivity. }
  split; apply perm_short; auto using ev_inss_len, ev_reports_len; now apply flat_map_perm.
Qed.

(** marking [z] does not concern pairs not containing [z] *)
Lemma mark_other z i j : In z (leaves d) -> lid z <> i -> lid z <> j ->
  filter (evsame i j) (mark_leaf d st S p z) = [].
Proof.
  intros Hz Hi Hj. destruct (Nat.eq_dec (lstamp z) S) as [Hf|Hf].
  - apply in_split in Hz as (A & C & E).
    apply Permutation_nil. symmetry.
    rewrite (filter_perm _ _ _ (mark_fresh_perm A z C E Hf)). rewrite !filter_app.
    rewrite !ev_filter_other by assumption. reflexivity.
  - unfold mark_leaf. apply Nat.eqb_neq in Hf. rewrite Hf. apply filter_none.
    intros e He. apply in_flat_map in He as (q & _ & He). destruct (snd q =? lid z); [|destruct He].
    destruct He as [<-|[]]. unfold evsame; cbn. destruct (same i j (fst q, lid z)) eqn:E; auto.
    apply same_true in E as [[= _ E]|[= _ E]]; congruence.
Qed.

(** marking a settled leaf reports the cached pairs of which it is the second component *)
Lemma mark_old_pair z j : lstamp z <> S ->
  let es := filter (evsame (lid z) j) (mark_leaf d st S p z) in
  inss es = [] /\ reports es = filter (fun q => snd q =? lid z) (filter (same (lid z) j) p).
Proof.
  intros Hf. cbn zeta. unfold mark_leaf. apply Nat.eqb_neq in Hf. rewrite Hf. split.
  - rewrite <- filter_inss. 
    assert (inss (flat_map (fun q => if snd q =? lid z then [Rep (fst q) (lid z)] else []) (filter (touches (lid z)) p)) = []) as ->; auto.
    induction (filter (touches (lid z)) p) as [|q l IH]; auto. cbn. rewrite inss_app, IH. destruct (snd q =? lid z); auto.
  - rewrite <- filter_reports. rewrite filter_filter.
    induction p as [|q l IH]; auto. cbn.
    destruct (touches (lid z) q) eqn:Et; cbn.
    + rewrite reports_app, filter_app, IH.
      destruct (snd q =? lid z) eqn:E; cbn.
      * assert ((fst q, lid z) = q) as -> by (apply Nat.eqb_eq in E; destruct q; cbn in *; subst; auto).
        destruct (same (lid z) j q); auto.
      * reflexivity.
    + fold (reports (flat_map (fun q0 : nat * nat => if snd q0 =? lid z then [Rep (fst q0) (lid z)] else []) (filter (touches (lid z)) l))). rewrite IH. destruct (snd q =? lid z) eqn:E; cbn; auto.
      unfold touches in Et. rewrite E in Et. rewrite orb_true_r in Et. discriminate.
Qed.
End MarkFresh.

(** every inserted pair joins leaves of the index, the second one dynamic *)
Lemma mark_inss_mem d st S p A z C a b : wf d -> wfo st -> NoDup (map lid (leaves d ++ oleaves st)) ->
  leaves d = A ++ z :: C -> In (a, b) (inss (mark_leaf d st S p z)) ->
  In b (map lid (leaves d)) /\ In a (map lid (leaves d ++ oleaves st)) /\ a <> b.
Proof.
  intros Hwd Hws Hnd E HI.
  destruct (nodup_parts d st Hnd A z C E) as (N1 & N2 & N3 & M1 & M2 & M3 & X1 & X2 & X3).
  assert (Hz : In (lid z) (map lid (leaves d))).
  { rewrite E, map_app. apply in_or_app; right; left; reflexivity. }
  destruct (Nat.eq_dec (lstamp z) S) as [Hf|Hf].
  - assert (HI2 : In (Ins a b) (flat_map (ev z false) (oleaves st) ++ flat_map (ev z true) C ++ flat_map (ev z false) A)).
    { eapply Permutation_in; [apply (mark_fresh_perm d st S p Hwd Hws Hnd A z C E Hf)|].
      unfold inss in HI. apply in_flat_map in HI as (e & He & HI). destruct e; cbn in HI; [|contradiction].
      destruct HI as [[= -> ->]|[]]; auto. }
    rewrite !map_app. rewrite !in_app_iff in HI2. rewrite !in_flat_map in HI2.
    destruct HI2 as [(s & Hs & He)|[(s & Hs & He)|(s & Hs & He)]];
      (assert (Hss : In (lid s) (map lid (oleaves st)) \/ In (lid s) (map lid C) \/ In (lid s) (map lid A))
        by (pose proof (in_map lid _ _ Hs); tauto));
      unfold ev in He; destruct (bb_intersects (lbb z) (lbb s)); try contradiction.
    + destruct (lstamp s <? lstamp z); cbn in He; decompose [or] He; try contradiction; try discriminate.
      match goal with H : Ins _ _ = _ |- _ => injection H as <- <- end.
      repeat split; auto. { apply in_or_app; right. now apply in_map. }
      intros EE. apply M3. rewrite <- EE. now apply in_map.
    + destruct He as [[= <- <-]|[]]. repeat split.
      * rewrite E, map_app. apply in_or_app; right; right. now apply in_map.
      * apply in_or_app; auto.
      * intros EE. apply M2. rewrite EE. now apply in_map.
    + destruct (lstamp s <? lstamp z); cbn in He; decompose [or] He; try contradiction; try discriminate.
      match goal with H : Ins _ _ = _ |- _ => injection H as <- <- end.
      repeat split; auto.
      * apply in_or_app; left. rewrite E, map_app. apply in_or_app; left. now apply in_map.
      * intros EE. apply M1. rewrite <- EE. now apply in_map.
  - exfalso. unfold mark_leaf in HI. apply Nat.eqb_neq in Hf. rewrite Hf in HI.
    unfold inss in HI. apply in_flat_map in HI as (e & He & HI).
    apply in_flat_map in He as (q & _ & He). destruct (snd q =? lid z); [destruct He as [<-|[]]; exact HI|destruct He].
Qed.

(** ** The marking pass *)
Definition proj (i j : nat) (acc : list (nat * nat) * list (nat * nat)) :=
  (filter (same i j) (fst acc), filter (same i j) (snd acc)).

Lemma proj_step i j d st S acc z :
  proj i j (mark_step d st S acc z) =
  let es := filter (evsame i j) (mark_leaf d st S (fst acc) z) in
  (rev (inss es) ++ fst (proj i j acc), snd (proj i j acc) ++ reports es).
Proof.
  unfold proj, mark_step; cbn. rewrite filter_run_events, filter_app, filter_reports. reflexivity.
Qed.

Lemma proj_others i j d st S L acc : wf d -> wfo st -> NoDup (map lid (leaves d ++ oleaves st)) ->
  (forall z, In z L -> In z (leaves d) /\ lid z <> i /\ lid z <> j) ->
  proj i j (fold_left (mark_step d st S) L acc) = proj i j acc.
Proof.
  intros Hwd Hws Hnd. revert acc. induction L as [|z L IH]; cbn; intros acc H; auto.
  rewrite IH by auto. rewrite proj_step. destruct (H z) as (H1 & H2 & H3); auto.
  rewrite mark_other; auto. cbn. rewrite app_nil_r. reflexivity.
Qed.

Lemma fold_split d st S A x C acc : leaves d = A ++ x :: C ->
  fold_left (mark_step d st S) (leaves d) acc =
  fold_left (mark_step d st S) C (mark_step d st S (fold_left (mark_step d st S) A acc) x).
Proof. intros ->. rewrite fold_left_app. reflexivity. Qed.

Lemma ltb_lt_true a b : a < b -> (a <? b) = true. Proof. apply Nat.ltb_lt. Qed.

(** Two dynamic leaves, x left of y. *)
Lemma mark_pair_dyn d st S p A x M y C : wf d -> wfo st -> NoDup (map lid (leaves d ++ oleaves st)) ->
  leaves d = A ++ x :: M ++ y :: C ->
  lstamp x <= S -> lstamp y <= S ->
  cnt (lid x) (lid y) p =
    (if (lstamp x =? S) || (lstamp y =? S) then 0 else if overlap x y then 1 else 0) ->
  let '(p', rep) := mark_subtree d st S p in
  cnt (lid x) (lid y) p' = (if overlap x y then 1 else 0) /\
  cnt (lid x) (lid y) rep = (if overlap x y then 1 else 0).
Proof.
  intros Hwd Hws Hnd E Sx Sy Hc.
  set (i := lid x). set (j := lid y).
  assert (Hinj : NoDup (map lid (leaves d))) by (rewrite map_app in Hnd; eapply nodup_app_l; eauto).
  assert (Hall : NoDup (map lid A ++ i :: map lid M ++ j :: map lid C)).
  { rewrite E, map_app in Hinj. cbn in Hinj. rewrite map_app in Hinj. exact Hinj. }
  assert (Hij : i <> j).
  { apply nodup_app_r in Hall. apply NoDup_cons_iff in Hall as [H _]. intros EE; apply H. rewrite EE.
    apply in_or_app; right; left; auto. }
  assert (HA : forall z, In z A -> In z (leaves d) /\ lid z <> i /\ lid z <> j).
  { intros z Hz. split; [rewrite E; apply in_or_app; auto|].
    apply nodup_app_iff in Hall as (_ & _ & H). specialize (H (lid z) (in_map _ _ _ Hz)).
    split; intros EE; apply H; rewrite EE; [left; auto | right; apply in_or_app; right; left; auto]. }
  assert (HM : forall z, In z M -> In z (leaves d) /\ lid z <> i /\ lid z <> j).
  { intros z Hz. split; [rewrite E; apply in_or_app; right; right; apply in_or_app; auto|].
    apply nodup_app_r in Hall. apply NoDup_cons_iff in Hall as [H1 H2]. split.
    - intros EE; apply H1. rewrite <- EE. apply in_or_app; left. now apply in_map.
    - apply nodup_app_iff in H2 as (_ & _ & H). specialize (H (lid z) (in_map _ _ _ Hz)).
      intros EE; apply H; left; auto. }
  assert (HC : forall z, In z C -> In z (leaves d) /\ lid z <> i /\ lid z <> j).
  { intros z Hz. split; [rewrite E; apply in_or_app; right; right; apply in_or_app; right; right; auto|].
    apply nodup_app_r in Hall. apply NoDup_cons_iff in Hall as [H1 H2].
    apply nodup_app_r in H2. apply NoDup_cons_iff in H2 as [H3 _]. split.
    - intros EE; apply H1. rewrite <- EE. apply in_or_app; right; right. now apply in_map.
    - intros EE; apply H3. rewrite <- EE. now apply in_map. }
  destruct (mark_subtree d st S p) as [p' rep] eqn:Em. unfold mark_subtree in Em.
  rewrite (fold_split d st S A x (M ++ y :: C)) in Em by exact E.
  rewrite fold_left_app in Em. cbn [fold_left] in Em.
  set (a0 := fold_left (mark_step d st S) A (p, [])) in *.
  set (a1 := mark_step d st S a0 x) in *.
  set (a2 := fold_left (mark_step d st S) M a1) in *.
  set (a3 := mark_step d st S a2 y) in *.
  assert (Q0 : proj i j a0 = (filter (same i j) p, [])).
  { unfold a0. rewrite proj_others by assumption. reflexivity. }
  assert (Q2 : proj i j a2 = proj i j a1) by (unfold a2; now apply proj_others).
  assert (Q4 : proj i j (p', rep) = proj i j a3) by (rewrite <- Em; now apply proj_others).
  assert (Q1 : proj i j a1 = let es := filter (evsame i j) (mark_leaf d st S (fst a0) x) in
      (rev (inss es) ++ filter (same i j) p, reports es)).
  { unfold a1. rewrite proj_step, Q0. reflexivity. }
  assert (Q3 : proj i j a3 = let es := filter (evsame i j) (mark_leaf d st S (fst a2) y) in
     (rev (inss es) ++ fst (proj i j a1), snd (proj i j a1) ++ reports es)).
  { unfold a3. rewrite proj_step, Q2. reflexivity. }
  assert (F2 : filter (same i j) (fst a2) = fst (proj i j a1)) by (rewrite <- Q2; reflexivity).
  assert (Ey : leaves d = (A ++ x :: M) ++ y :: C) by (rewrite E, <- app_assoc; reflexivity).
  assert (goal : fst (proj i j a3) = filter (same i j) p' /\ snd (proj i j a3) = filter (same i j) rep)
    by (rewrite <- Q4; auto).
  unfold cnt. fold i j. destruct goal as [<- <-]. rewrite Q3. cbn [fst snd].
  assert (Eevs : forall es, filter (evsame i j) es = filter (evsame j i) es).
  { intros es. apply filter_ext. intros e. unfold evsame. apply same_sym. }
  unfold cnt in Hc. fold i j in Hc.
  (* step x *)
  destruct (Nat.eq_dec (lstamp x) S) as [Fx|Fx].
  - destruct (mark_fresh_pair d st S (fst a0) Hwd Hws Hnd A x (M ++ y :: C) y true E Fx) as [X1 X2].
    { left; split; auto. apply in_or_app; right; left; auto. }
    fold i j in X1, X2. rewrite Q1; cbn zeta; cbn [fst snd]. rewrite X1, X2.
    rewrite Fx, Nat.eqb_refl in Hc; cbn [orb] in Hc. apply length_zero_iff_nil in Hc. rewrite Hc.
    unfold ev at 1. fold (overlap x y).
    assert (F2' : filter (same i j) (fst a2) = if overlap x y then [(i, j)] else []).
    { rewrite F2, Q1; cbn zeta; cbn [fst]. rewrite X1, Hc. unfold ev. fold (overlap x y). destruct (overlap x y); reflexivity. }
    destruct (Nat.eq_dec (lstamp y) S) as [Fy|Fy].
    + destruct (mark_fresh_pair d st S (fst a2) Hwd Hws Hnd (A ++ x :: M) y C x false Ey Fy) as [Y1 Y2].
      { right; split; auto. left. apply in_or_app; right; left; auto. }
      fold i j in Y1, Y2. rewrite Eevs. rewrite Y1, Y2. unfold ev.
      fold (overlap x y). fold (overlap y x). rewrite (overlap_sym y x).
      rewrite Fx, Fy, Nat.ltb_irrefl. destruct (overlap x y); auto.
    + destruct (mark_old_pair d st S (fst a2) y i Fy) as [Y1 Y2].
      fold j in Y1, Y2. rewrite Eevs. rewrite Y1, Y2.
      assert (filter (same j i) (fst a2) = filter (same i j) (fst a2)) as -> by (apply filter_ext; intros; apply same_sym).
      rewrite F2'. unfold ev. fold (overlap x y). destruct (overlap x y); cbn; rewrite ?Nat.eqb_refl; auto.
  - destruct (mark_old_pair d st S (fst a0) x j Fx) as [X1 X2]. fold i in X1, X2.
    assert (Fa0 : filter (same i j) (fst a0) = filter (same i j) p) by (change (fst (proj i j a0) = filter (same i j) p); now rewrite Q0).
    rewrite Fa0 in X2. rewrite Q1; cbn zeta; cbn [fst snd]. rewrite X1, X2. cbn [rev app].
    assert (F2' : filter (same i j) (fst a2) = filter (same i j) p).
    { rewrite F2, Q1; cbn zeta; cbn [fst]. rewrite X1. reflexivity. }
    apply Nat.eqb_neq in Fx. rewrite Fx in Hc. cbn [orb] in Hc. apply Nat.eqb_neq in Fx.
    destruct (Nat.eq_dec (lstamp y) S) as [Fy|Fy].
    + rewrite Fy, Nat.eqb_refl in Hc. apply length_zero_iff_nil in Hc. rewrite Hc.
      destruct (mark_fresh_pair d st S (fst a2) Hwd Hws Hnd (A ++ x :: M) y C x false Ey Fy) as [Y1 Y2].
      { right; split; auto. left. apply in_or_app; right; left; auto. }
      fold i j in Y1, Y2. rewrite Eevs. rewrite Y1, Y2. unfold ev.
      fold (overlap y x). rewrite (overlap_sym y x).
      rewrite ltb_lt_true by lia. destruct (overlap x y); auto.
    + apply Nat.eqb_neq in Fy. rewrite Fy in Hc. apply Nat.eqb_neq in Fy.
      destruct (mark_old_pair d st S (fst a2) y i Fy) as [Y1 Y2].
      fold j in Y1, Y2. rewrite Eevs. rewrite Y1, Y2.
      assert (filter (same j i) (fst a2) = filter (same i j) (fst a2)) as -> by (apply filter_ext; intros; apply same_sym).
      rewrite F2'. cbn [rev app].
      split; [exact Hc|].
      destruct (filter (same i j) p) as [|q [|q' l]] eqn:Ep; cbn in Hc |- *; try (destruct (overlap x y); cbn in *; lia).
      assert (Hq : same i j q = true).
      { assert (In q (filter (same i j) p)) by (rewrite Ep; left; auto). apply filter_In in H; tauto. }
      apply same_true in Hq. destruct Hq as [->| ->]; cbn; rewrite ?Nat.eqb_refl.
      * assert ((j =? i) = false) as -> by (apply Nat.eqb_neq; auto). cbn. exact Hc.
      * assert ((i =? j) = false) as -> by (apply Nat.eqb_neq; auto). cbn. exact Hc.
Qed.

(** A static leaf x and a dynamic leaf y; cached pairs with a static leaf have the dynamic one second. *)
Lemma mark_pair_sta d st S p A y C x : wf d -> wfo st -> NoDup (map lid (leaves d ++ oleaves st)) ->
  leaves d = A ++ y :: C -> In x (oleaves st) ->
  lstamp x < S -> lstamp y <= S ->
  cnt (lid x) (lid y) p =
    (if (lstamp x =? S) || (lstamp y =? S) then 0 else if overlap x y then 1 else 0) ->
  (forall a b, In (a, b) p -> In b (map lid (leaves d))) ->
  let '(p', rep) := mark_subtree d st S p in
  cnt (lid x) (lid y) p' = (if overlap x y then 1 else 0) /\
  cnt (lid x) (lid y) rep = (if overlap x y then 1 else 0).
Proof.
  intros Hwd Hws Hnd E Hx Sx Sy Hc Hmem.
  set (i := lid x). set (j := lid y).
  destruct (nodup_parts d st Hnd A y C E) as (N1 & N2 & N3 & M1 & M2 & M3 & X1 & X2 & X3).
  assert (Hxi : In i (map lid (oleaves st))) by (now apply in_map).
  assert (Hij : i <> j) by (intros EE; apply M3; fold j; rewrite <- EE; auto).
  assert (HA : forall z, In z A -> In z (leaves d) /\ lid z <> i /\ lid z <> j).
  { intros z Hz. pose proof (in_map lid _ _ Hz) as Hz'. split; [rewrite E; apply in_or_app; auto|]. split; intros EE.
    - apply (X2 (lid z)); auto. rewrite EE. auto.
    - apply M1. fold j. rewrite <- EE. auto. }
  assert (HC : forall z, In z C -> In z (leaves d) /\ lid z <> i /\ lid z <> j).
  { intros z Hz. pose proof (in_map lid _ _ Hz) as Hz'. split; [rewrite E; apply in_or_app; right; right; auto|]. split; intros EE.
    - apply (X3 (lid z)); auto. rewrite EE. auto.
    - apply M2. fold j. rewrite <- EE. auto. }
  destruct (mark_subtree d st S p) as [p' rep] eqn:Em. unfold mark_subtree in Em.
  rewrite (fold_split d st S A y C) in Em by exact E.
  set (a0 := fold_left (mark_step d st S) A (p, [])) in *.
  set (a1 := mark_step d st S a0 y) in *.
  assert (Q0 : proj i j a0 = (filter (same i j) p, [])).
  { unfold a0. rewrite proj_others by assumption. reflexivity. }
  assert (Q2 : proj i j (p', rep) = proj i j a1) by (rewrite <- Em; now apply proj_others).
  assert (Q1 : proj i j a1 = let es := filter (evsame i j) (mark_leaf d st S (fst a0) y) in
      (rev (inss es) ++ filter (same i j) p, reports es)).
  { unfold a1. rewrite proj_step, Q0. reflexivity. }
  assert (goal : fst (proj i j a1) = filter (same i j) p' /\ snd (proj i j a1) = filter (same i j) rep)
    by (rewrite <- Q2; auto).
  unfold cnt. fold i j. destruct goal as [<- <-]. rewrite Q1. cbn zeta. cbn [fst snd].
  assert (Eevs : forall es, filter (evsame i j) es = filter (evsame j i) es).
  { intros es. apply filter_ext. intros e. unfold evsame. apply same_sym. }
  unfold cnt in Hc. fold i j in Hc.
  assert ((lstamp x =? S) = false) as Ex by (apply Nat.eqb_neq; lia). rewrite Ex in Hc. cbn [orb] in Hc.
  rewrite Eevs.
  destruct (Nat.eq_dec (lstamp y) S) as [Fy|Fy].
  - rewrite Fy, Nat.eqb_refl in Hc. apply length_zero_iff_nil in Hc. rewrite Hc.
    destruct (mark_fresh_pair d st S (fst a0) Hwd Hws Hnd A y C x false E Fy) as [Y1 Y2]; [auto|].
    fold i j in Y1, Y2. rewrite Y1, Y2. unfold ev. fold (overlap y x). rewrite (overlap_sym y x).
    rewrite ltb_lt_true by lia. destruct (overlap x y); auto.
  - apply Nat.eqb_neq in Fy. rewrite Fy in Hc. apply Nat.eqb_neq in Fy.
    destruct (mark_old_pair d st S (fst a0) y i Fy) as [Y1 Y2]. fold j in Y1, Y2. rewrite Y1, Y2.
    assert (filter (same j i) (fst a0) = filter (same i j) (fst a0)) as -> by (apply filter_ext; intros; apply same_sym).
    assert (Fa0 : filter (same i j) (fst a0) = filter (same i j) p) by (change (fst (proj i j a0) = filter (same i j) p); now rewrite Q0).
    rewrite Fa0. cbn [rev app]. split; [exact Hc|].
    destruct (filter (same i j) p) as [|q [|q' l]] eqn:Ep; cbn in Hc |- *; try (destruct (overlap x y); cbn in *; lia).
    assert (Hq : In q p /\ same i j q = true).
    { assert (HH : In q (filter (same i j) p)) by (rewrite Ep; left; auto). apply filter_In in HH; tauto. }
    destruct Hq as [HI Hq]. apply same_true in Hq. destruct Hq as [->| ->]; cbn; rewrite ?Nat.eqb_refl; auto.
    exfalso. apply Hmem in HI. rewrite E, map_app in HI; cbn in HI. apply in_app_or in HI as [HI|[HI|HI]].
    + now apply (X2 i).
    + now apply Hij.
    + now apply (X3 i).
Qed.

(** inserts during the pass keep the cache inside the index *)
Lemma mark_subtree_mem d st S p : wf d -> wfo st -> NoDup (map lid (leaves d ++ oleaves st)) ->
  (forall a b, In (a, b) p -> In b (map lid (leaves d)) /\ In a (map lid (leaves d ++ oleaves st)) /\ a <> b) ->
  let '(p', rep) := mark_subtree d st S p in
  (forall a b, In (a, b) p' -> In b (map lid (leaves d)) /\ In a (map lid (leaves d ++ oleaves st)) /\ a <> b).
Proof.
  intros Hwd Hws Hnd Hp. unfold mark_subtree.
  assert (H : forall L acc, (forall z, In z L -> In z (leaves d)) ->
    (forall a b, In (a, b) (fst acc) -> In b (map lid (leaves d)) /\ In a (map lid (leaves d ++ oleaves st)) /\ a <> b) ->
    forall a b, In (a, b) (fst (fold_left (mark_step d st S) L acc)) ->
    In b (map lid (leaves d)) /\ In a (map lid (leaves d ++ oleaves st)) /\ a <> b).
  { induction L as [|z L IH]; cbn; intros acc HL Hacc; auto. apply IH; auto.
    intros a b. unfold mark_step; cbn [fst]. rewrite run_events_eq. intros HI.
    apply in_app_or in HI as [HI|HI]; auto. apply in_rev in HI.
    assert (Hz : In z (leaves d)) by auto. apply in_split in Hz as (A & C & E).
    eapply mark_inss_mem; eauto. }
  specialize (H (leaves d) (p, []) (fun z Hz => Hz) Hp).
  destruct (fold_left (mark_step d st S) (leaves d) (p, [])) as [p' rep]. exact H.
Qed.

(** every report concerns two distinct members, not both static *)
Lemma mark_reports_mem d st S p : wf d -> wfo st -> NoDup (map lid (leaves d ++ oleaves st)) ->
  (forall a b, In (a, b) p -> In b (map lid (leaves d)) /\ In a (map lid (leaves d ++ oleaves st)) /\ a <> b) ->
  let '(p', rep) := mark_subtree d st S p in
  forall a b, In (a, b) rep ->
    In a (map lid (leaves d ++ oleaves st)) /\ In b (map lid (leaves d ++ oleaves st)) /\ a <> b /\
    (In a (map lid (leaves d)) \/ In b (map lid (leaves d))).
Proof.
  intros Hwd Hws Hnd Hp. unfold mark_subtree.
  assert (Hd : forall i, In i (map lid (leaves d)) -> In i (map lid (leaves d ++ oleaves st))).
  { intros i Hi. rewrite map_app. apply in_or_app; auto. }
  set (memp := fun pr : list (nat * nat) => forall a b, In (a, b) pr -> In b (map lid (leaves d)) /\ In a (map lid (leaves d ++ oleaves st)) /\ a <> b).
  set (memr := fun rp : list (nat * nat) => forall a b, In (a, b) rp ->
    In a (map lid (leaves d ++ oleaves st)) /\ In b (map lid (leaves d ++ oleaves st)) /\ a <> b /\
    (In a (map lid (leaves d)) \/ In b (map lid (leaves d)))).
  assert (H : forall L acc, (forall z, In z L -> In z (leaves d)) -> memp (fst acc) -> memr (snd acc) ->
    memr (snd (fold_left (mark_step d st S) L acc))).
  { induction L as [|z L IH]; cbn; intros acc HL H1 H2; auto.
    assert (Hz : In z (leaves d)) by auto. pose proof (in_map lid _ _ Hz) as Hzi. apply in_split in Hz as (A & C & E).
    apply IH; auto.
    - intros a b. unfold mark_step; cbn [fst]. rewrite run_events_eq. intros HI.
      apply in_app_or in HI as [HI|HI]; auto. apply in_rev in HI. eapply mark_inss_mem; eauto.
    - intros a b HI. unfold mark_step in HI; cbn [snd] in HI. apply in_app_or in HI as [HI|HI]; auto.
      unfold reports in HI. apply in_flat_map in HI as (e & He & HI). destruct e as [|a' b']; [destruct HI|].
      destruct HI as [[= -> ->]|[]].
      destruct (nodup_parts d st Hnd A z C E) as (N1 & N2 & N3 & M1 & M2 & M3 & X1 & X2 & X3).
      destruct (Nat.eq_dec (lstamp z) S) as [Hf|Hf].
      + apply (Permutation_in _ (mark_fresh_perm d st S (fst acc) Hwd Hws Hnd A z C E Hf)) in He.
        assert (Hw : exists w lf, (In w A \/ In w C \/ In w (oleaves st)) /\ In (Rep a b) (ev z lf w)).
        { rewrite !in_app_iff, !in_flat_map in He.
          destruct He as [(w & Hw & He)|[(w & Hw & He)|(w & Hw & He)]]; exists w; eexists; split; eauto. }
        destruct Hw as (w & lf & Hw & Hev).
        assert (Hab : a = lid z /\ b = lid w).
        { unfold ev in Hev. destruct (bb_intersects _ _); [|destruct Hev]. destruct lf.
          - destruct Hev as [Hev|[]]; discriminate.
          - apply in_app_or in Hev as [Hev|Hev].
            + destruct (lstamp w <? lstamp z); [destruct Hev as [Hev|[]]; discriminate|destruct Hev].
            + destruct Hev as [[= -> ->]|[]]; auto. }
        destruct Hab as [-> ->].
        assert (Hwid : In (lid w) (map lid (leaves d ++ oleaves st)) /\ lid z <> lid w).
        { rewrite E, !map_app. cbn. destruct Hw as [Hw|[Hw|Hw]]; pose proof (in_map lid _ _ Hw) as Hw'.
          - split; [apply in_or_app; left; apply in_or_app; left; auto|intros EE; rewrite EE in *; auto].
          - split; [apply in_or_app; left; apply in_or_app; right; right; auto|intros EE; rewrite EE in *; auto].
          - split; [apply in_or_app; right; auto|intros EE; rewrite EE in *; auto]. }
        destruct Hwid as [W1 W2]. repeat split; auto.
      + unfold mark_leaf in He. apply Nat.eqb_neq in Hf. rewrite Hf in He.
        apply in_flat_map in He as (q & Hq & He). destruct (snd q =? lid z) eqn:Eq; [|destruct He]. destruct He as [He|[]].
        injection He as <- <-. apply filter_In in Hq as [Hq _]. destruct q as [qa qb]; cbn in *.
        apply Nat.eqb_eq in Eq; subst qb. apply H1 in Hq as (Q1 & Q2 & Q3). repeat split; auto. }
  specialize (H (leaves d) (p, []) (fun z Hz => Hz) Hp).
  destruct (fold_left (mark_step d st S) (leaves d) (p, [])) as [p' rep]. apply H. intros a b [].
Qed.
End Pairs.
