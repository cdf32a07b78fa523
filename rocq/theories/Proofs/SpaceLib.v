(** List lemmas for the space model, and simplification of its records. *)
From Coq Require Import List Arith NArith Bool Lia Permutation.
From Verif.Model Require Import HashSet Space.
From Verif.Proofs Require Import Util.
Import ListNotations.

Lemma memb_In x l : memb x l = true <-> In x l.
Proof. unfold memb. rewrite existsb_exists. split; [intros (y & H & E); apply Nat.eqb_eq in E; now subst|intros H; exists x; split; auto; apply Nat.eqb_refl]. Qed.
Lemma memb_spec x l : reflect (In x l) (memb x l).
Proof. apply iff_reflect. symmetry. apply memb_In. Qed.
Lemma memb_false x l : memb x l = false <-> ~ In x l.
Proof. destruct (memb_spec x l); split; auto; try discriminate; tauto. Qed.
Lemma memb_app x l m : memb x (l ++ m) = (memb x l || memb x m)%bool.
Proof. apply existsb_app. Qed.

Lemma del_perm x l : In x l -> Permutation (x :: del x l) l.
Proof.
  induction l as [|y l IH]; [intros []|]. cbn [del]. intros H. destruct (Nat.eqb_spec x y) as [->|N]; auto.
  destruct H as [H|H]; [congruence|]. rewrite perm_swap. constructor. auto.
Qed.
Lemma del_none x l : ~ In x l -> del x l = l.
Proof. induction l as [|y l IH]; cbn; auto. intros H. destruct (Nat.eqb_spec x y); [subst; tauto|]. f_equal. tauto. Qed.
Lemma del_nodup x l : NoDup l -> NoDup (del x l).
Proof.
  intros H. destruct (in_dec Nat.eq_dec x l) as [I|I]; [|now rewrite del_none].
  apply (Permutation_NoDup (Permutation_sym (del_perm x l I))) in H. now inversion H.
Qed.
Lemma del_incl x y l : In y (del x l) -> In y l.
Proof. induction l as [|z l IH]; cbn; auto. destruct (Nat.eqb_spec x z); cbn; tauto. Qed.
Lemma del_In x y l : NoDup l -> (In y (del x l) <-> In y l /\ y <> x).
Proof.
  intros ND. split.
  - intros H. split; [now apply del_incl in H|]. intros ->. destruct (in_dec Nat.eq_dec x l) as [I|I].
    + apply (Permutation_NoDup (Permutation_sym (del_perm x l I))) in ND. inversion ND. auto.
    + rewrite del_none in H; auto.
  - intros [H N]. destruct (in_dec Nat.eq_dec x l) as [I|I]; [|now rewrite del_none].
    apply (Permutation_in _ (Permutation_sym (del_perm x l I))) in H. destruct H; [congruence|auto].
Qed.
Lemma swap_del_perm x l : Permutation (swap_del x l) (del x l).
Proof.
  induction l as [|y l IH]; cbn [swap_del del]; auto. destruct (Nat.eqb x y); [|constructor; auto].
  destruct (rev l) as [|z r] eqn:E.
  - apply (f_equal (@rev nat)) in E. rewrite rev_involutive in E. now subst.
  - apply (f_equal (@rev nat)) in E. rewrite rev_involutive in E. subst l. cbn. apply Permutation_cons_append.
Qed.
Lemma swap_del_nodup x l : NoDup l -> NoDup (swap_del x l).
Proof. intros H. eapply Permutation_NoDup; [symmetry; apply swap_del_perm|now apply del_nodup]. Qed.
Lemma swap_del_In x y l : NoDup l -> (In y (swap_del x l) <-> In y l /\ y <> x).
Proof.
  intros H. rewrite <- (del_In x y l H). split; apply Permutation_in; [apply swap_del_perm|symmetry; apply swap_del_perm].
Qed.
Definition dels (r l : list nat) : list nat := fold_left (fun acc x => del x acc) r l.
Lemma dels_nodup r : forall l, NoDup l -> NoDup (dels r l).
Proof. induction r as [|x r IH]; cbn; auto. intros l H. apply IH. now apply del_nodup. Qed.
Lemma dels_In y r : forall l, NoDup l -> (In y (dels r l) <-> In y l /\ ~ In y r).
Proof.
  induction r as [|x r IH]; cbn [dels fold_left]; intros l H; [cbn; tauto|]. fold (dels r (del x l)). rewrite IH by now apply del_nodup. rewrite (del_In x y l H). cbn.
  split; [intros [[A B] C]; split; auto; intros [D|D]; congruence|intros [A B]; split; [split; auto|]; auto].
Qed.
Lemma dels_app r r' l : dels (r ++ r') l = dels r' (dels r l).
Proof. unfold dels. now rewrite fold_left_app. Qed.
Lemma nodup_app (l m : list nat) : NoDup (l ++ m) <-> NoDup l /\ NoDup m /\ (forall x, In x l -> ~ In x m).
Proof.
  rewrite nodup_app_iff. split; intros (A & B & C); repeat split; auto.
Qed.
Lemma flat_map_nodup {A} (f : A -> list nat) l : NoDup l -> (forall x, In x l -> NoDup (f x)) -> (forall x y z, In x l -> In y l -> In z (f x) -> In z (f y) -> x = y) -> NoDup (flat_map f l).
Proof.
  induction l as [|x l IH]; cbn; intros ND H1 H2; [constructor|]. apply NoDup_cons_iff in ND as [N1 N2]. apply nodup_app. split; [auto|]. split.
  - apply IH; auto. intros a b z Ha Hb. apply H2; auto.
  - intros z Hz Hz'. apply in_flat_map in Hz' as (y & Y1 & Y2). apply N1. rewrite (H2 x y z); auto.
Qed.
Lemma nodup_flat_map_inv {A} (f : A -> list nat) l : NoDup (flat_map f l) -> forall x, In x l -> NoDup (f x).
Proof. induction l as [|x l IH]; cbn; intros H y []; subst; apply nodup_app in H as (A1 & A2 & _); auto. Qed.
Lemma NoDup_snoc (l : list nat) x : NoDup l -> ~ In x l -> NoDup (l ++ [x]).
Proof. intros H N. apply nodup_app. repeat split; auto; [constructor; [intros []|constructor]|]. intros y Hy [<-|[]]. auto. Qed.
Lemma In_snoc (l : list nat) x y : In y (l ++ [x]) <-> In y l \/ y = x.
Proof. rewrite in_app_iff. cbn. intuition. Qed.

(** record simplification *)
Ltac ss := cbn [sp_b sp_s sp_a sp_c sp_dyn sp_stat sp_sleep sp_roused sp_didx sp_sidx sp_arbs sp_cache sp_cons sp_pool sp_locked sp_stamp sp_log sp_nb sp_na sp_sb
  set_b set_s set_a set_c set_dyn set_stat set_sleep set_roused set_didx set_sidx set_arbs set_cache set_cons set_pool set_locked set_stamp set_log set_nb set_na
  upd_b upd_a emit bod sb_kind sb_idle sb_root sb_next sb_in sb_shapes sb_arbs sb_cons b_kind b_idle b_root b_next b_in b_shapes b_arbs b_cons
  sa_a sa_b sa_ba sa_bb sa_state sa_stamp a_state a_stamp ss_body ss_in ss_sensor sc_a sc_b sc_in sc_collide] in *.
Ltac splits := repeat match goal with |- _ /\ _ => split end.

Section Each.
Context {T : Type} `{Time T}.
Lemma each_app (f : Space T -> nat -> option (Space T)) l : forall s m, each f s (l ++ m) = match each f s l with Some s => each f s m | None => None end.
Proof. induction l as [|x l IH]; intros s m; cbn; auto. destruct (f s x); auto. Qed.
(** induction over a loop *)
Lemma each_ind (f : Space T -> nat -> option (Space T)) (P : Space T -> list nat -> Prop) :
  (forall s x l, P s (x :: l) -> exists s', f s x = Some s' /\ P s' l) -> forall l s, P s l -> exists s', each f s l = Some s' /\ P s' [].
Proof.
  intros H0. induction l as [|x l IH]; intros s Hs; cbn; [eauto|]. destruct (H0 s x l Hs) as (s1 & E & H1). rewrite E. auto.
Qed.
End Each.
