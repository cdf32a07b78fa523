(** Marching squares: the contours collected are closed. *)
From Coq Require Import Reals ZArith List Arith Bool Lia Lra Permutation.
From Verif Require Import Num Spec SpecShapes SpecPolyline SpecMarch.
From Verif.Model Require Import Vector BB Polyline March.
From Verif.Proofs Require Import RTac Geom PolylinePf PolylineTransit MarchPf MarchR.
Import ListNotations.
Local Open Scope R_scope.

Lemma count_flat {A} (g : A -> list RV) (v : RV) : forall l, NoDup l -> (forall x, In x l -> (count_occ RV_dec (g x) v <= 1)%nat) -> (forall x y, In x l -> In y l -> In v (g x) -> In v (g y) -> x = y) -> (count_occ RV_dec (flat_map g l) v <= 1)%nat.
Proof.
  induction l as [|x l IH]; intros ND C U; cbn [flat_map]; [cbn; lia|]. rewrite count_occ_app. inversion ND as [|? ? N ND']; subst. assert (A1 := C x (or_introl eq_refl)).
  assert (A2 : (count_occ RV_dec (flat_map g l) v <= 1)%nat) by (apply IH; auto; [intros y Hy; apply C; cbn; auto|intros y z Hy Hz; apply U; cbn; auto]).
  destruct (count_occ RV_dec (g x) v) eqn:Cx; [lia|]. assert (Ix : In v (g x)) by (apply (count_occ_In RV_dec); lia). assert (Z : count_occ RV_dec (flat_map g l) v = 0%nat); [|lia].
  apply count_occ_not_In. intros I. apply in_flat_map in I as (y & Hy & Iy). apply N. rewrite (U x y); cbn; auto.
Qed.
Lemma map_flat {A B C} (h : B -> C) (g : A -> list B) l : map h (flat_map g l) = flat_map (fun x => map h (g x)) l.
Proof. induction l; cbn [flat_map map]; [reflexivity|]. now rewrite map_app, IHl. Qed.

Section Grid.
Variables (box : BB R) (xs ys : nat) (t : R) (f : RV -> R).
Notation gx := (grid_x box xs). Notation gy := (grid_y box ys). Notation nd i j := (mkV (gx i) (gy j)).
Hypothesis (HX : bl box < br box) (HY : bb box < bt box) (X2 : (2 <= xs)%nat) (Y2 : (2 <= ys)%nat).
Lemma gx_mono i k : (i < k)%nat -> gx i < gx k.
Proof.
  intros L. rewrite !gx_node. assert (1 < INR xs) by (change 1 with (INR 1); apply lt_INR; lia). assert (INR i < INR k) by now apply lt_INR. apply Rplus_lt_compat_l. apply Rmult_lt_compat_r; [lra|]. apply Rmult_lt_compat_r; [apply Rinv_0_lt_compat; lra|lra].
Qed.
Lemma gy_mono i k : (i < k)%nat -> gy i < gy k.
Proof.
  intros L. rewrite !gy_node. assert (1 < INR ys) by (change 1 with (INR 1); apply lt_INR; lia). assert (INR i < INR k) by now apply lt_INR. apply Rplus_lt_compat_l. apply Rmult_lt_compat_r; [lra|]. apply Rmult_lt_compat_r; [apply Rinv_0_lt_compat; lra|lra].
Qed.
Lemma gx_between i k : gx i < gx k < gx (S i) -> False.
Proof. intros [A B]. destruct (lt_eq_lt_dec k i) as [[L|L]|L]; [apply gx_mono in L; lra|subst; lra|]. destruct (Nat.eq_dec k (S i)) as [->|N]; [lra|]. assert (L2 : (S i < k)%nat) by lia. apply gx_mono in L2. lra. Qed.
Lemma gy_between i k : gy i < gy k < gy (S i) -> False.
Proof. intros [A B]. destruct (lt_eq_lt_dec k i) as [[L|L]|L]; [apply gy_mono in L; lra|subst; lra|]. destruct (Nat.eq_dec k (S i)) as [->|N]; [lra|]. assert (L2 : (S i < k)%nat) by lia. apply gy_mono in L2. lra. Qed.
Lemma gx_inj i k : gx i = gx k -> i = k.
Proof. intros E. destruct (lt_eq_lt_dec i k) as [[L|L]|L]; auto; apply gx_mono in L; lra. Qed.
Lemma gy_inj i k : gy i = gy k -> i = k.
Proof. intros E. destruct (lt_eq_lt_dec i k) as [[L|L]|L]; auto; apply gy_mono in L; lra. Qed.
Lemma gx_open i k x : gx i < x < gx (S i) -> gx k < x < gx (S k) -> i = k.
Proof. intros A B. destruct (lt_eq_lt_dec i k) as [[L|L]|L]; auto; exfalso; [destruct (Nat.eq_dec (S i) k) as [<-|N]; [lra|]; assert (Q : (S i < k)%nat) by lia|destruct (Nat.eq_dec (S k) i) as [<-|N]; [lra|]; assert (Q : (S k < i)%nat) by lia]; apply gx_mono in Q; lra. Qed.
Lemma gy_open i k x : gy i < x < gy (S i) -> gy k < x < gy (S k) -> i = k.
Proof. intros A B. destruct (lt_eq_lt_dec i k) as [[L|L]|L]; auto; exfalso; [destruct (Nat.eq_dec (S i) k) as [<-|N]; [lra|]; assert (Q : (S i < k)%nat) by lia|destruct (Nat.eq_dec (S k) i) as [<-|N]; [lra|]; assert (Q : (S k < i)%nat) by lia]; apply gy_mono in Q; lra. Qed.

(** points strictly inside an edge, points strictly inside a cell *)
Definition onH (i j : nat) (q : RV) := gx i < vx q < gx (S i) /\ vy q = gy j.
Definition onV (i j : nat) (q : RV) := vx q = gx i /\ gy j < vy q < gy (S j).
Definition centre (q : RV) : Prop := exists i j, gx i < vx q < gx (S i) /\ gy j < vy q < gy (S j).
Lemma onH_eq i j i' j' q : onH i j q -> onH i' j' q -> i = i' /\ j = j'.
Proof. intros [A B] [C D]. split; [eapply gx_open; eauto|apply gy_inj; congruence]. Qed.
Lemma onV_eq i j i' j' q : onV i j q -> onV i' j' q -> i = i' /\ j = j'.
Proof. intros [A B] [C D]. split; [apply gx_inj; congruence|eapply gy_open; eauto]. Qed.
Lemma onHV i j i' j' q : onH i j q -> onV i' j' q -> False.
Proof. intros [A B] [C D]. rewrite C in A. eapply gx_between; eauto. Qed.
Lemma onH_centre i j q : onH i j q -> ~ centre q.
Proof. intros [_ A] (i' & j' & _ & B). rewrite A in B. eapply gy_between; eauto. Qed.
Lemma onV_centre i j q : onV i j q -> ~ centre q.
Proof. intros [A _] (i' & j' & B & _). rewrite A in B. eapply gx_between; eauto. Qed.

Definition out_in (u v : RV) : Prop := f u <= t < f v.
Definition starts_at i j q : Prop := (out_in (nd (S i) j) (nd i j) /\ onH i j q) \/ (out_in (nd i (S j)) (nd (S i) (S j)) /\ onH i (S j) q) \/ (out_in (nd i j) (nd i (S j)) /\ onV i j q) \/ (out_in (nd (S i) (S j)) (nd (S i) j) /\ onV (S i) j q).
Definition ends_at i j q : Prop := (out_in (nd i j) (nd (S i) j) /\ onH i j q) \/ (out_in (nd (S i) (S j)) (nd i (S j)) /\ onH i (S j) q) \/ (out_in (nd i (S j)) (nd i j) /\ onV i j q) \/ (out_in (nd (S i) j) (nd (S i) (S j)) /\ onV (S i) j q).
Ltac pairs := repeat match goal with
  | A : onH ?i ?j ?q, B : onH ?i' ?j' ?q |- _ => destruct (onH_eq _ _ _ _ _ A B); clear B
  | A : onV ?i ?j ?q, B : onV ?i' ?j' ?q |- _ => destruct (onV_eq _ _ _ _ _ A B); clear B
  | A : onH _ _ ?q, B : onV _ _ ?q |- _ => exfalso; exact (onHV _ _ _ _ _ A B) end.
Lemma starts_one i j i' j' q : starts_at i j q -> starts_at i' j' q -> i = i' /\ j = j'.
Proof. unfold starts_at, out_in. intros [[A O]|[[A O]|[[A O]|[A O]]]] [[B P]|[[B P]|[[B P]|[B P]]]]; pairs; subst; try (split; congruence); try (exfalso; lra); try (split; lia). Qed.
Lemma ends_one i j i' j' q : ends_at i j q -> ends_at i' j' q -> i = i' /\ j = j'.
Proof. unfold ends_at, out_in. intros [[A O]|[[A O]|[[A O]|[A O]]]] [[B P]|[[B P]|[[B P]|[B P]]]]; pairs; subst; try (split; congruence); try (exfalso; lra); try (split; lia). Qed.
Lemma starts_clear i j q : starts_at i j q -> ~ centre q.
Proof. intros [[_ O]|[[_ O]|[[_ O]|[_ O]]]]; eauto using onH_centre, onV_centre. Qed.
Lemma ends_clear i j q : ends_at i j q -> ~ centre q.
Proof. intros [[_ O]|[[_ O]|[[_ O]|[_ O]]]]; eauto using onH_centre, onV_centre. Qed.

Variable cell : R -> R -> R -> R -> R -> R -> R -> R -> R -> list (RV * RV).
Notation at_cell i j := (cell_at box xs ys t f cell i j).
(** what a cell must satisfy *)
Notation inside i j := ((S i < xs)%nat /\ (S j < ys)%nat).
Hypothesis K1 : forall i j s, inside i j -> In s (at_cell i j) -> (centre (fst s) \/ starts_at i j (fst s)) /\ (centre (snd s) \/ ends_at i j (snd s)).
Hypothesis K2 : forall i j v, inside i j -> ~ centre v -> (count_occ RV_dec (map fst (at_cell i j)) v <= 1)%nat /\ (count_occ RV_dec (map snd (at_cell i j)) v <= 1)%nat.
Hypothesis K3 : forall i j, inside i j -> blocks centre (at_cell i j).
Variable out : list (RV * RV).
Hypothesis E : march_cells box xs ys t (smp f) cell = Some out.
Lemma out_count (h : RV * RV -> RV) v : ~ centre v -> (forall i j i' j', inside i j -> inside i' j' -> In v (map h (at_cell i j)) -> In v (map h (at_cell i' j')) -> i = i' /\ j = j') -> (forall i j, inside i j -> (count_occ RV_dec (map h (at_cell i j)) v <= 1)%nat) -> (count_occ RV_dec (map h out) v <= 1)%nat.
Proof.
  intros Nv U C. rewrite (march_pure _ _ _ _ _ _ _ E), map_flat. apply count_flat; [apply seq_NoDup| |].
  - intros j Hj. apply in_seq in Hj. rewrite map_flat. apply count_flat; [apply seq_NoDup|intros i Hi; apply in_seq in Hi; apply C; lia|]. intros i i' Hi Hi' A B. apply in_seq in Hi, Hi'. apply (U i j i' j); auto; lia.
  - intros j j' Hj Hj' A B. apply in_seq in Hj, Hj'. apply in_map_iff in A as (s & <- & A). apply in_map_iff in B as (s' & Es & B). apply in_flat_map in A as (i & Hi & A). apply in_flat_map in B as (i' & Hi' & B). apply in_seq in Hi, Hi'. apply (U i j i' j'); try lia; apply in_map_iff; eauto.
Qed.
Lemma out_loops : Permutation (map fst out) (map snd out) -> Forall loops (collect_all out).
Proof.
  intros P. apply (blocks_loops centre).
  - rewrite (march_pure _ _ _ _ _ _ _ E). assert (BJ : forall j, In j (seq 0 (ys - 1)) -> (S j < ys)%nat) by (intros j Hj; apply in_seq in Hj; lia). assert (BI : forall i, In i (seq 0 (xs - 1)) -> (S i < xs)%nat) by (intros i Hi; apply in_seq in Hi; lia). revert BI BJ. generalize (seq 0 (xs - 1)) as is_. generalize (seq 0 (ys - 1)) as js. intros js is_ BI BJ.
    induction js as [|j js IH]; cbn [flat_map]; [constructor|]. apply blocks_app; [|apply IH; intros; apply BJ; cbn; auto]. clear IH. induction is_ as [|i is_ IHi]; cbn [flat_map]; [constructor|]. apply blocks_app; [apply K3; split; [apply BI|apply BJ]; cbn; auto|apply IHi; intros; apply BI; cbn; auto].
  - intros v Nv. apply out_count; auto; [|intros; now apply K2]. intros i j i' j' I1 I2 A B. apply in_map_iff in A as (s & Es & A). apply in_map_iff in B as (s' & Es' & B). apply K1 in A as [[A|A] _]; [congruence| |exact I1]. apply K1 in B as [[B|B] _]; [congruence| |exact I2]. eapply starts_one; [rewrite <- Es; exact A|rewrite Es, <- Es'; exact B].
  - intros v Nv. apply out_count; auto; [|intros; now apply K2]. intros i j i' j' I1 I2 A B. apply in_map_iff in A as (s & Es & A). apply in_map_iff in B as (s' & Es' & B). apply K1 in A as [_ [A|A]]; [congruence| |exact I1]. apply K1 in B as [_ [B|B]]; [congruence| |exact I2]. eapply ends_one; [rewrite <- Es; exact A|rewrite Es, <- Es'; exact B].
  - intros s Hs. eapply Permutation_in; [symmetry; exact P|]. now apply in_map.
Qed.
End Grid.

(** ** the border is outside: every point is the start of as many segments as it is the end of *)
Lemma bal_occ (q : RV) l : bal q l = (Z.of_nat (count_occ RV_dec (map fst l) q) - Z.of_nat (count_occ RV_dec (map snd l) q))%Z.
Proof.
  induction l as [|[u w] l IH]; [reflexivity|]. cbn [bal map fst snd count_occ]. rewrite IH. assert (O : forall v : RV, one (vequal v q) = if RV_dec v q then 1%Z else 0%Z). { intros v. destruct (RV_dec v q) as [->|N]; [replace (vequal q q) with true by (symmetry; now apply vequal_R)|replace (vequal v q) with false by (symmetry; now apply vequal_Rf)]; reflexivity. }
  rewrite !O. destruct (RV_dec u q), (RV_dec w q); lia.
Qed.
Lemma R_eq_sym (x y : R) : neqb x y = neqb y x.
Proof. cbn. unfold Reqb. destruct (Req_EM_T x y), (Req_EM_T y x); congruence. Qed.
Lemma R_eq_trans (x y z : R) : neqb x y = true -> neqb y z = true -> neqb x z = true.
Proof. cbn. rewrite !Reqb_true. congruence. Qed.
Section Balance.
Variables (box : BB R) (xs ys : nat) (t : R) (f : RV -> R) (hp vp : R -> R -> R -> R -> R -> RV) (cell : R -> R -> R -> R -> R -> R -> R -> R -> R -> list (RV * RV)).
Hypothesis CON : forall q, consistent q t hp vp cell.
Hypothesis BO : forall v, border box xs ys v -> f v <= t.
Lemma border_perm out : march_cells box xs ys t (smp f) cell = Some out -> Permutation (map fst out) (map snd out).
Proof.
  intros E. destruct (Nat.lt_ge_cases xs 2) as [L|X2]; [|destruct (Nat.lt_ge_cases ys 2) as [L|Y2]].
  - rewrite (march_pure _ _ _ _ _ _ _ E). replace (xs - 1)%nat with 0%nat by lia. cbn [seq flat_map]. induction (seq 0 (ys - 1)); cbn; auto.
  - rewrite (march_pure _ _ _ _ _ _ _ E). replace (ys - 1)%nat with 0%nat by lia. reflexivity.
  - apply (Permutation_count_occ RV_dec). intros q. pose proof (bal_occ q out) as B.
    assert (Z0 : forall a b, a <= t -> b <= t -> (one (nltb t a) - one (nltb t b) = 0)%Z) by (intros a b A C; cbn [nltb numR]; replace (Rltb t a) with false by (symmetry; apply Rltb_false; lra); replace (Rltb t b) with false by (symmetry; apply Rltb_false; lra); reflexivity).
    assert (N : forall i j, mkV (grid_x box xs i) (grid_y box ys j) = node box xs ys i j) by (intros; apply nd_node).
    assert (BN : forall i j, (i < xs)%nat -> (j < ys)%nat -> (i = 0 \/ j = 0 \/ S i = xs \/ S j = ys)%nat -> f (mkV (grid_x box xs i) (grid_y box ys j)) <= t) by (intros i j Hi Hj C; apply BO; exists i, j; repeat split; auto).
    rewrite (march_bal q t hp vp cell (CON q) box xs ys (smp f) (fun v => v <= t) (fun v => v <= t) (fun v => v <= t) (fun v => v <= t)) in B; try assumption; unfold smp.
    + lia.
    + intros a c y0 y1 A C. unfold eW. rewrite Z0 by assumption. reflexivity.
    + intros a c y0 y1 A C. unfold eW. rewrite Z0 by assumption. reflexivity.
    + intros a c y0 y1 A C. unfold eU. rewrite Z0 by assumption. reflexivity.
    + intros a c y0 y1 A C. unfold eU. rewrite Z0 by assumption. reflexivity.
    + intros _ j Hj. rewrite <- (gx0 box xs). apply BN; lia.
    + intros _ j Hj. apply BN; lia.
    + intros _ i Hi. rewrite <- (gy0 box ys). apply BN; lia.
    + intros _. rewrite <- (gy0 box ys). apply BN; lia.
    + intros _. rewrite <- (gy0 box ys). apply BN; lia.
    + intros _ i Hi. apply BN; lia.
    + intros _. rewrite <- (gx0 box xs). apply BN; lia.
    + intros X1. lia.
Qed.
End Balance.
