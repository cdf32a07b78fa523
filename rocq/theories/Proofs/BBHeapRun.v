(** Whole histories: the heap holds what Model/BBTree.v says. *)
From Coq Require Import Reals ZArith Bool List Arith Lia Permutation.
From Verif Require Import Num Spec SpecIndex SpecIndexHeap.
From Verif.Model Require Import Vector BB BBTree BBTreeHeap.
From Verif.Proofs Require Import BBTreeInv BBTreePairs BBTreeTop FloatMono BBHeapTop.
Import ListNotations.
Local Open Scope nat_scope.

Lemma nodup_cnt (L : list (nat * nat)) : (forall a b, In (a, b) L -> cnt a b L <= 1) -> NoDup L.
Proof.
  induction L as [|[a b] L IH]; intros H; constructor.
  - intros Hi. pose proof (H a b (or_introl eq_refl)) as K. unfold cnt in K. cbn [filter] in K. rewrite (proj2 (same_true a b (a, b))) in K by auto. cbn [length] in K.
    assert (Hf : In (a, b) (filter (same a b) L)) by (apply filter_In; split; [exact Hi|apply same_true; auto]). destruct (filter (same a b) L); [destruct Hf|cbn in K; lia].
  - apply IH. intros c d Hc. pose proof (H c d (or_intror Hc)) as K. unfold cnt in *. cbn [filter] in K. destruct (same c d (a, b)); cbn [length] in K; lia.
Qed.
Lemma run_fits (e0 : env F) (h : list (op F)) : valid e0 h -> fits (fun d => count d h) (couples h) (run e0 h).
Proof.
  intros Hv. pose proof (fun d => Permutation_length (leaves_members e0 d h Hv)) as L.
  assert (L' : forall d, length (oleaves (get_tree d (run e0 h))) = count d h) by (intros d; rewrite <- (map_length lid); apply L). clear L.
  split; [intros d; rewrite L'; lia|]. destruct (ag_inv _ _ (run_agrees e0 h Hv)) as ([_ _ Nd _ Ca Me] & _).
  transitivity (length (list_prod (map lid (all (run e0 h))) (map lid (dleaves (run e0 h))))).
  - apply NoDup_incl_length.
    + apply nodup_cnt. intros a b Hab. destruct (Me a b Hab) as (B & A & Ne). apply in_map_iff in A as (x & <- & Hx). apply in_map_iff in B as (y & <- & Hy).
      rewrite (Ca x y Hy Hx Ne). destruct (_ || _); [lia|]. destruct (overlap x y); lia.
    + intros [a b] Hab. destruct (Me a b Hab) as (B & A & _). now apply in_prod.
  - rewrite prod_length, !map_length. pose proof (L' true) as L1. pose proof (L' false) as L2. cbn [get_tree] in L1, L2. unfold couples, all, dleaves, sleaves in *. rewrite app_length, L1, L2. nia.
Qed.
Lemma peak_now {T} (f : list (op T) -> nat) h : f h <= peak f h.
Proof. destruct h; cbn [peak]; lia. Qed.
Lemma peak_past {T} (f : list (op T) -> nat) o h : peak f h <= peak f (o :: h).
Proof. cbn [peak]. lia. Qed.

Lemma hrun_ok (e0 : env F) (h : list (op F)) : valid e0 h -> exists hs, hrun e0 h = Some hs /\ R (fun d => peak (count d) h) (peak couples h) hs (run e0 h).
Proof.
  induction h as [|o h IH]; intros Hv; [exists hi_new; split; [reflexivity|apply rel_new]|].
  pose proof (run_fits _ _ Hv) as (F1 & F2). destruct Hv as (Ha & Hv). destruct (IH Hv) as (hs & E & Hr). cbn [hrun]. rewrite E. clear E IH.
  pose proof (fun d => proj1 (tree_wellformed e0 h Hv d)) as Hm.
  assert (LN : forall d, peak (count d) h <= peak (count d) (o :: h)) by (intros d; apply peak_past). assert (LP : peak couples h <= peak couples (o :: h)) by apply peak_past.
  assert (G1 : forall d, length (oleaves (get_tree d (run e0 (o :: h)))) <= peak (count d) (o :: h)) by (intros d; etransitivity; [apply F1|apply peak_now]).
  assert (G2 : length (pairs (run e0 (o :: h))) <= peak couples (o :: h)) by (etransitivity; [apply F2|apply peak_now]). clear F1 F2.
  destruct o as [e|d id|d id|d id|order]; cbn [happly run SpecIndex.apply] in *.
  - exists hs. split; [reflexivity|]. eapply R_weaken; eauto.
  - eapply insert_rel; [exact Hr|exact LN|exact LP|split; auto|]. intros d' H. apply Hm in H. cbn in Ha. destruct d'; tauto.
  - apply remove_rel; [eapply R_weaken; eauto|]. apply Hm. exact Ha.
  - eapply reindex_object_rel; [eapply R_weaken; [exact Hr|exact LN|apply Nat.le_refl]|exact LP|exact G2].
  - destruct (reindex_query_rel (fun d => peak (count d) (OReindexQuery order :: h)) (peak couples h) (peak couples (OReindexQuery order :: h)) (env_now e0 h) order hs (run e0 h)) as (hs' & E & H); [eapply R_weaken; [exact Hr|exact LN|apply Nat.le_refl]|exact LP|exact G2|].
    rewrite E. eauto.
Qed.
Lemma hrun_memory (e0 : env F) (h : list (op F)) : valid e0 h -> exists hs, hrun e0 h = Some hs /\
  nfresh (hn hs) <= 2 * (peak (count true) h + peak (count false) h) + 2 * S POOLED_BUFFER_SIZE + 1 /\
  pfresh (hp hs) <= peak couples h + S POOLED_BUFFER_SIZE.
Proof.
  intros Hv. destruct (hrun_ok e0 h Hv) as (hs & E & t & q & pl & pq & _ & [A1 A2 A3 A4 A5 A6]). exists hs. split; [exact E|]. split; [|exact A6].
  specialize (A1 true). cbn [negb] in A1. pose proof (A3 true). pose proof (A3 false). cbv beta in *. lia.
Qed.
