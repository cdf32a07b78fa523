(** Order-only facts about boxes, for any arithmetic with [OrdNum] (reals and binary64). *)
From Coq Require Import Reals ZArith Bool Lra.
From Verif Require Import Num Spec.
From Verif.Model Require Import Vector BB.
From Verif.Proofs Require Import RTac.

Section Ord.
Context {T : Type} {NT : Num T} {OT : OrdNum T}.
Notation B := (BB T).

(** [x <= y] between numbers, including that both are ok *)
Lemma nle_iff (x y : T) : nleb x y = true <-> ok x /\ ok y /\ (val x <= val y)%R.
Proof.
  split.
  - intros H. destruct (nleb_ok x y H) as [a b]. repeat split; auto.
    rewrite nleb_val in H by assumption. now apply Rleb_true.
  - intros (a & b & c). rewrite nleb_val by assumption. now apply Rleb_true.
Qed.
Lemma nlt_iff (x y : T) : nltb x y = true <-> ok x /\ ok y /\ (val x < val y)%R.
Proof.
  split.
  - intros H. destruct (nltb_ok x y H) as [a b]. repeat split; auto.
    rewrite nltb_val in H by assumption. now apply Rltb_true.
  - intros (a & b & c). rewrite nltb_val by assumption. now apply Rltb_true.
Qed.
Lemma nlt_false (x y : T) : ok x -> ok y -> (nltb x y = false <-> (val y <= val x)%R).
Proof. intros. rewrite nltb_val by assumption. apply Rltb_false. Qed.

Lemma nmin_both x y : ok x -> ok y -> ok (nmin x y) /\ val (nmin x y) = Rmin (val x) (val y).
Proof. split; [now apply nmin_ok | now apply nmin_val]. Qed.
Lemma nmax_both x y : ok x -> ok y -> ok (nmax x y) /\ val (nmax x y) = Rmax (val x) (val y).
Proof. split; [now apply nmax_ok | now apply nmax_val]. Qed.

Ltac ordprep :=
  unfold ordered, in_box, subbox, ok_box, ok_vec in *; cbn [bl bb br bt vx vy] in *;
  repeat match goal with
  | H : _ /\ _ |- _ => destruct H
  | H : (_ && _)%bool = true |- _ => apply andb_prop in H
  | H : nleb _ _ = true |- _ => apply nle_iff in H
  end.
Ltac minmax :=
  repeat match goal with
  | |- context [nmin ?x ?y] => lazymatch goal with
      | _ : val (nmin x y) = _ |- _ => fail
      | _ => let H := fresh in
             assert (H : ok (nmin x y) /\ val (nmin x y) = Rmin (val x) (val y)) by
               (apply nmin_both; assumption); destruct H end
  | |- context [nmax ?x ?y] => lazymatch goal with
      | _ : val (nmax x y) = _ |- _ => fail
      | _ => let H := fresh in
             assert (H : ok (nmax x y) /\ val (nmax x y) = Rmax (val x) (val y)) by
               (apply nmax_both; assumption); destruct H end
  end.
Ltac rmm := repeat match goal with
  | H : _ = Rmin ?a ?b |- _ => revert H; unfold Rmin; destruct (Rle_dec a b); intros
  | H : _ = Rmax ?a ?b |- _ => revert H; unfold Rmax; destruct (Rle_dec a b); intros end.
Ltac ordsolve := minmax; repeat split; try (apply nle_iff; repeat split; auto; rmm; lra); auto.

Lemma intersects_sym (a b : B) : bb_intersects a b = bb_intersects b a.
Proof.
  unfold bb_intersects. destruct (nleb (bl a) (br b)), (nleb (bl b) (br a)), (nleb (bb a) (bt b)), (nleb (bb b) (bt a)); reflexivity.
Qed.

Lemma intersects_iff (a b : B) : ordered a -> ordered b ->
  (bb_intersects a b = true <-> exists p, in_box a p /\ in_box b p).
Proof.
  intros Ha Hb. split.
  - intros H. unfold bb_intersects in H.
    exists (mkV (nmax (bl a) (bl b)) (nmax (bb a) (bb b))). ordprep. ordsolve.
  - intros [p [H1 H2]]. unfold bb_intersects. ordprep.
    repeat (apply andb_true_intro; split); apply nle_iff; repeat split; auto; lra.
Qed.

Lemma contains_vect_iff (a : B) v : bb_contains_vect a v = true <-> in_box a v.
Proof.
  unfold bb_contains_vect, in_box. rewrite !andb_true_iff. tauto.
Qed.
Lemma contains_subbox (a o : B) : bb_contains a o = true <-> subbox o a.
Proof. unfold bb_contains, subbox. rewrite !andb_true_iff. tauto. Qed.

Lemma contains_iff (a o : B) : ordered o ->
  (bb_contains a o = true <-> forall p, in_box o p -> in_box a p).
Proof.
  intros Ho. rewrite contains_subbox. split.
  - intros H p Hp. ordprep. ordsolve.
  - intros H.
    assert (H1 : in_box o (mkV (bl o) (bb o))) by (ordprep; ordsolve).
    assert (H2 : in_box o (mkV (br o) (bt o))) by (ordprep; ordsolve).
    apply H in H1. apply H in H2. ordprep. ordsolve.
Qed.

Lemma subbox_refl (a : B) : ok_box a -> subbox a a.
Proof. intros. ordprep. ordsolve. Qed.
Lemma subbox_trans (a b c : B) : subbox a b -> subbox b c -> subbox a c.
Proof. intros. ordprep. ordsolve. Qed.
Lemma subbox_okl (a b : B) : subbox a b -> ok_box a.
Proof. intros. ordprep. ordsolve. Qed.
Lemma subbox_okr (a b : B) : subbox a b -> ok_box b.
Proof. intros. ordprep. ordsolve. Qed.
Lemma subbox_intersects (a b q : B) : subbox a b -> bb_intersects a q = true -> bb_intersects b q = true.
Proof.
  unfold bb_intersects. intros. ordprep.
  repeat (apply andb_true_intro; split); apply nle_iff; repeat split; auto; lra.
Qed.
Lemma intersects_okl (a b : B) : bb_intersects a b = true -> ok_box a.
Proof. unfold bb_intersects; intros; ordprep; ordsolve. Qed.
Lemma intersects_self (a : B) : ordered a -> bb_intersects a a = true.
Proof.
  unfold bb_intersects. intros. ordprep.
  repeat (apply andb_true_intro; split); apply nle_iff; repeat split; auto; lra.
Qed.
Lemma ordered_ok (a : B) : ordered a -> ok_box a.
Proof. intros; ordprep; ordsolve. Qed.

Lemma merge_ok (a b : B) : ok_box a -> ok_box b -> ok_box (bb_merge a b).
Proof. unfold bb_merge. intros. ordprep. ordsolve. Qed.
Lemma merge_l (a b : B) : ok_box a -> ok_box b -> subbox a (bb_merge a b).
Proof. unfold bb_merge. intros. ordprep. ordsolve. Qed.
Lemma merge_r (a b : B) : ok_box a -> ok_box b -> subbox b (bb_merge a b).
Proof. unfold bb_merge. intros. ordprep. ordsolve. Qed.
Lemma merge_least (a b c : B) : subbox a c -> subbox b c -> subbox (bb_merge a b) c.
Proof. unfold bb_merge. intros. ordprep. ordsolve. Qed.
Lemma merge_ordered (a b : B) : ordered a -> ordered b -> ordered (bb_merge a b).
Proof. unfold bb_merge. intros. ordprep. ordsolve. Qed.

Lemma expand_ok (a : B) v : ok_box a -> ok_vec v -> ok_box (bb_expand a v).
Proof. unfold bb_expand. intros. ordprep. ordsolve. Qed.
Lemma expand_box (a : B) v : ok_box a -> ok_vec v -> subbox a (bb_expand a v).
Proof. unfold bb_expand. intros. ordprep. ordsolve. Qed.
Lemma expand_vec (a : B) v : ok_box a -> ok_vec v -> in_box (bb_expand a v) v.
Proof. unfold bb_expand. intros. ordprep. ordsolve. Qed.
Lemma expand_least (a : B) v c : subbox a c -> in_box c v -> subbox (bb_expand a v) c.
Proof. unfold bb_expand. intros. ordprep. ordsolve. Qed.

(** Clamp on ok values: inside the range, identity on the range, monotone. *)
Lemma clamp_spec (f lo hi : T) : ok f -> nleb lo hi = true ->
  ok (nclamp f lo hi) /\ val (nclamp f lo hi) = Rmax (val lo) (Rmin (val f) (val hi)).
Proof.
  intros Hf H. apply nle_iff in H as (Hl & Hh & H). unfold nclamp.
  destruct (nltb lo f) eqn:E.
  - apply nlt_iff in E as (_ & _ & E). split; [now apply nmin_ok|]. rewrite nmin_val by assumption.
    unfold Rmin, Rmax; repeat destruct (Rle_dec _ _); lra.
  - apply nlt_false in E; try assumption. split; [now apply nmin_ok|]. rewrite nmin_val by assumption.
    unfold Rmin, Rmax; repeat destruct (Rle_dec _ _); lra.
Qed.
Lemma clamp_in (f lo hi : T) : ok f -> nleb lo hi = true ->
  nleb lo (nclamp f lo hi) = true /\ nleb (nclamp f lo hi) hi = true.
Proof.
  intros Hf H. destruct (clamp_spec f lo hi Hf H) as [H1 H2].
  apply nle_iff in H as (Hl & Hh & H).
  split; apply nle_iff; repeat split; auto; rewrite H2;
  unfold Rmin, Rmax; repeat destruct (Rle_dec _ _); lra.
Qed.
Lemma clamp_vect_in (a : B) v : ordered a -> ok_vec v -> in_box a (bb_clamp_vect a v).
Proof.
  intros [H1 H2] [H3 H4]. unfold in_box, bb_clamp_vect; cbn [vx vy].
  destruct (clamp_in (vx v) _ _ H3 H1), (clamp_in (vy v) _ _ H4 H2). auto.
Qed.
End Ord.
