(** List utilities. *)
From Coq Require Import List Arith Bool Lia Permutation.
Import ListNotations.

Lemma nodup_app_iff {A} (l1 l2 : list A) :
  NoDup (l1 ++ l2) <-> NoDup l1 /\ NoDup l2 /\ (forall x, In x l1 -> ~ In x l2).
Proof.
  induction l1 as [|x l1 IH]; cbn.
  - split; [intros H; repeat split; auto; constructor | tauto].
  - rewrite !NoDup_cons_iff, IH, in_app_iff. split.
    + intros (H1 & H2 & H3 & H4). repeat split; auto. intros y [->|Hy]; auto.
    + intros ((H1 & H2) & H3 & H4). split.
      * intros [H|H]; auto. eapply H4; eauto.
      * repeat split; auto.
Qed.
Lemma nodup_app_l {A} (l1 l2 : list A) : NoDup (l1 ++ l2) -> NoDup l1.
Proof. rewrite nodup_app_iff; tauto. Qed.
Lemma nodup_app_r {A} (l1 l2 : list A) : NoDup (l1 ++ l2) -> NoDup l2.
Proof. rewrite nodup_app_iff; tauto. Qed.
Lemma filter_all {A} (f : A -> bool) l : (forall x, In x l -> f x = true) -> filter f l = l.
Proof. induction l as [|x l IH]; cbn; auto. intros H. rewrite (H x) by auto. f_equal. auto. Qed.
Lemma filter_none {A} (f : A -> bool) l : (forall x, In x l -> f x = false) -> filter f l = [].
Proof. induction l as [|x l IH]; cbn; auto. intros H. rewrite (H x) by auto. auto. Qed.
Lemma flat_map_nil {A C} (f : A -> list C) l : (forall x, In x l -> f x = []) -> flat_map f l = [].
Proof. induction l as [|x l IH]; cbn; auto. intros H. rewrite (H x) by auto. rewrite IH; auto. Qed.
Lemma filter_perm {A} (f : A -> bool) l1 l2 : Permutation l1 l2 -> Permutation (filter f l1) (filter f l2).
Proof.
  induction 1; cbn; auto.
  - destruct (f x); auto.
  - destruct (f x), (f y); auto. constructor.
  - etransitivity; eauto.
Qed.
Lemma filter_flat_map {A C} (f : C -> bool) (g : A -> list C) l :
  filter f (flat_map g l) = flat_map (fun x => filter f (g x)) l.
Proof. induction l as [|x l IH]; cbn; auto. now rewrite filter_app, IH. Qed.
Lemma filter_filter {A} (f g : A -> bool) l : filter f (filter g l) = filter (fun x => f x && g x) l.
Proof.
  induction l as [|x l IH]; cbn; auto. destruct (g x); cbn; rewrite ?IH; destruct (f x); cbn; auto; now rewrite IH.
Qed.
Lemma nodup_filter {A} (f : A -> bool) l : NoDup l -> NoDup (filter f l).
Proof. induction 1; cbn; [constructor|]. destruct (f x); auto. constructor; auto. rewrite filter_In; tauto. Qed.
Lemma nodup_map_filter {A C} (g : A -> C) (f : A -> bool) l : NoDup (map g l) -> NoDup (map g (filter f l)).
Proof.
  induction l as [|x l IH]; cbn; auto. rewrite NoDup_cons_iff. intros (H1 & H2).
  destruct (f x); cbn; auto. constructor; auto. intros HI. apply H1.
  apply in_map_iff in HI as (y & E & HI). rewrite filter_In in HI. apply in_map_iff. exists y; tauto.
Qed.
Lemma nodup_perm {A} (l1 l2 : list A) : Permutation l1 l2 -> NoDup l1 -> NoDup l2.
Proof. intros. eapply Permutation_NoDup; eauto. Qed.
Lemma flat_map_perm {A C} (f : A -> list C) l1 l2 : Permutation l1 l2 -> Permutation (flat_map f l1) (flat_map f l2).
Proof. apply Permutation_flat_map. Qed.
Lemma length_filter_le {A} (f : A -> bool) l : length (filter f l) <= length l.
Proof. induction l as [|x l IH]; cbn; auto. destruct (f x); cbn; lia. Qed.
