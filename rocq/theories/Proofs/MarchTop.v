(** The two cell functions of march.go. *)
From Coq Require Import Reals ZArith List Arith Bool Lia Lra Permutation.
From Verif Require Import Num Spec SpecShapes SpecPolyline SpecMarch.
From Verif.Model Require Import Vector BB Polyline March.
From Verif.Proofs Require Import RTac Geom PolylinePf PolylineTransit MarchPf MarchR MarchLoops.
Import ListNotations.
Local Open Scope R_scope.

Lemma mid_eq x0 x1 s0 s1 t : midlerp x0 x1 s0 s1 t = x0 + (t - s0) / (s1 - s0) * (x1 - x0).
Proof. unfold midlerp, nlerp. unR. ring. Qed.
Lemma frac_in (s0 s1 t : R) : s1 <= t < s0 \/ s0 <= t < s1 -> 0 <= (t - s0) / (s1 - s0) <= 1.
Proof.
  intros [L|L].
  - replace ((t - s0) / (s1 - s0)) with ((s0 - t) / (s0 - s1)) by (field; lra). split; [apply Rmult_le_pos; [lra|left; apply Rinv_0_lt_compat; lra]|]. apply Rmult_le_reg_r with (s0 - s1); [lra|]. unfold Rdiv. rewrite Rmult_assoc, Rinv_l by lra. lra.
  - split; [apply Rmult_le_pos; [lra|left; apply Rinv_0_lt_compat; lra]|]. apply Rmult_le_reg_r with (s1 - s0); [lra|]. unfold Rdiv. rewrite Rmult_assoc, Rinv_l by lra. lra.
Qed.
Lemma frac_open (s0 s1 t : R) : s1 < t < s0 \/ s0 < t < s1 -> 0 < (t - s0) / (s1 - s0) < 1.
Proof.
  intros [L|L].
  - replace ((t - s0) / (s1 - s0)) with ((s0 - t) / (s0 - s1)) by (field; lra). split; [apply Rmult_lt_0_compat; [lra|apply Rinv_0_lt_compat; lra]|]. apply Rmult_lt_reg_r with (s0 - s1); [lra|]. unfold Rdiv. rewrite Rmult_assoc, Rinv_l by lra. lra.
  - split; [apply Rmult_lt_0_compat; [lra|apply Rinv_0_lt_compat; lra]|]. apply Rmult_lt_reg_r with (s1 - s0); [lra|]. unfold Rdiv. rewrite Rmult_assoc, Rinv_l by lra. lra.
Qed.
Lemma mid_open x0 x1 s0 s1 t : x0 < x1 -> s1 < t < s0 \/ s0 < t < s1 -> x0 < midlerp x0 x1 s0 s1 t < x1.
Proof. intros Hx L. rewrite mid_eq. apply frac_open in L. set (k := _ / _) in *. assert (0 < k * (x1 - x0)) by (apply Rmult_lt_0_compat; lra). assert (k * (x1 - x0) < 1 * (x1 - x0)) by (apply Rmult_lt_compat_r; lra). lra. Qed.
Lemma half_open (x0 x1 : R) : x0 < x1 -> x0 < nlerp x0 x1 nhalf < x1.
Proof. intros L. unfold nlerp. unR. lra. Qed.

Section Top.
Variables (box : BB R) (xs ys : nat) (t : R) (f : RV -> R).
Notation gx := (grid_x box xs). Notation gy := (grid_y box ys). Notation nd i j := (mkV (gx i) (gy j)).
Hypothesis (HX : bl box < br box) (HY : bb box < bt box) (X2 : (2 <= xs)%nat) (Y2 : (2 <= ys)%nat).
Notation inside i j := ((S i < xs)%nat /\ (S j < ys)%nat).

(** ** soft *)
Hypothesis NT : forall i j, (i < xs)%nat -> (j < ys)%nat -> f (nd i j) <> t.
Lemma soft_K1 i j s : inside i j -> In s (cell_at box xs ys t f cell_soft i j) -> starts_at box xs ys t f i j (fst s) /\ ends_at box xs ys t f i j (snd s).
Proof.
  intros [Hi Hj] I. unfold cell_at in I. apply soft_in in I. assert (N1 := NT i j ltac:(lia) ltac:(lia)). assert (N2 := NT (S i) j ltac:(lia) ltac:(lia)). assert (N3 := NT i (S j) ltac:(lia) ltac:(lia)). assert (N4 := NT (S i) (S j) ltac:(lia) ltac:(lia)).
  assert (Gx : gx i < gx (S i)) by (eapply gx_mono; eauto; lia). assert (Gy : gy j < gy (S j)) by (eapply gy_mono; eauto; lia). destruct I as [S0 E0]. split; [destruct S0 as [[A ->]|[[A ->]|[[A ->]|[A ->]]]]|destruct E0 as [[A ->]|[[A ->]|[[A ->]|[A ->]]]]]; unfold starts_at, ends_at, out_in, onH, onV; cbn [vx vy];
  first [left; split; [exact A|split; [apply mid_open; auto; lra|reflexivity]]|right; left; split; [exact A|split; [apply mid_open; auto; lra|reflexivity]]|right; right; left; split; [exact A|split; [reflexivity|apply mid_open; auto; lra]]|right; right; right; split; [exact A|split; [reflexivity|apply mid_open; auto; lra]]].
Qed.
Lemma count_seg (h : RV * RV -> RV) v0 v1 v : (count_occ RV_dec (map h (seg v0 v1)) v <= if RV_dec (h (v1, v0)) v then 1 else 0)%nat.
Proof. unfold seg. destruct (vequal v0 v1); cbn [map count_occ]; destruct (RV_dec (h (v1, v0)) v); lia. Qed.
Lemma count_two (h : RV * RV -> RV) a b c d v : h (b, a) <> h (d, c) -> (count_occ RV_dec (map h (seg a b ++ seg c d)) v <= 1)%nat.
Proof. intros N. rewrite map_app, count_occ_app. pose proof (count_seg h a b v). pose proof (count_seg h c d v). destruct (RV_dec (h (b, a)) v), (RV_dec (h (d, c)) v); try lia. congruence. Qed.
Lemma count_one (h : RV * RV -> RV) a b v : (count_occ RV_dec (map h (seg a b)) v <= 1)%nat.
Proof. pose proof (count_seg h a b v). destruct (RV_dec (h (b, a)) v); lia. Qed.
Lemma soft_K2 i j v : inside i j -> (count_occ RV_dec (map fst (cell_at box xs ys t f cell_soft i j)) v <= 1)%nat /\ (count_occ RV_dec (map snd (cell_at box xs ys t f cell_soft i j)) v <= 1)%nat.
Proof.
  intros [Hi Hj]. assert (Gx : gx i < gx (S i)) by (eapply gx_mono; eauto; lia). assert (Gy : gy j < gy (S j)) by (eapply gy_mono; eauto; lia).
  unfold cell_at, cell_soft. destruct (nltb t (f (nd i j))), (nltb t (f (nd (S i) j))), (nltb t (f (nd i (S j)))), (nltb t (f (nd (S i) (S j)))); split; try apply count_one; try (apply count_two; cbn [fst snd]; intros Q; pose proof (f_equal vx Q) as Qx; pose proof (f_equal vy Q) as Qy; cbn [vx vy] in Qx, Qy; lra); cbn [map count_occ]; lia.
Qed.
Lemma none_blocks (l : list (RV * RV)) (X : RV -> Prop) : (forall s, In s l -> ~ X (fst s) /\ ~ X (snd s)) -> blocks X l.
Proof. induction l as [|[u w] l IH]; intros C; [constructor|]. destruct (C (u, w)) as [A B]; [cbn; auto|]. constructor; auto. apply IH. intros s Hs. apply C. cbn; auto. Qed.
Lemma soft_K3 i j : inside i j -> blocks (centre box xs ys) (cell_at box xs ys t f cell_soft i j).
Proof.
  intros IN. apply none_blocks. intros s Hs. destruct (soft_K1 i j s IN Hs) as [A B]. split; [eapply starts_clear; eauto|eapply ends_clear; eauto].
Qed.
Lemma soft_loops out : Permutation (map fst out) (map snd out) -> march_soft box xs ys t (smp f) = Some out -> Forall loops (collect_all out).
Proof.
  intros P E. eapply (out_loops box xs ys t f HX HY X2 Y2 cell_soft); eauto.
  - intros i j s IN Hs. destruct (soft_K1 i j s IN Hs). auto.
  - intros i j v IN _. now apply soft_K2.
  - exact soft_K3.
Qed.
End Top.
Section Hard.
Variables (box : BB R) (xs ys : nat) (t : R) (f : RV -> R).
Notation gx := (grid_x box xs). Notation gy := (grid_y box ys). Notation nd i j := (mkV (gx i) (gy j)).
Hypothesis (HX : bl box < br box) (HY : bb box < bt box) (X2 : (2 <= xs)%nat) (Y2 : (2 <= ys)%nat).
Notation inside i j := ((S i < xs)%nat /\ (S j < ys)%nat).
Notation xm i := (nlerp (gx i) (gx (S i)) nhalf). Notation ym j := (nlerp (gy j) (gy (S j)) nhalf).
Lemma seg_cons (u w : RV) : u <> w -> seg u w = [(w, u)].
Proof. intros N. unfold seg. replace (vequal u w) with false by (symmetry; now apply vequal_Rf). reflexivity. Qed.
Ltac ne := let Q := fresh in let Qx := fresh in let Qy := fresh in intros Q; pose proof (f_equal vx Q) as Qx; pose proof (f_equal vy Q) as Qy; cbn [vx vy] in Qx, Qy; lra.
Ltac expand i j := assert (Gx : gx i < gx (S i)) by (eapply gx_mono; eauto; lia); assert (Gy : gy j < gy (S j)) by (eapply gy_mono; eauto; lia); pose proof (half_open _ _ Gx) as Mx; pose proof (half_open _ _ Gy) as My;
  unfold cell_at, cell_hard; cbv zeta; cbn [nltb numR]; destruct (Rltb t (f (nd i j))) eqn:A, (Rltb t (f (nd (S i) j))) eqn:B, (Rltb t (f (nd i (S j)))) eqn:C, (Rltb t (f (nd (S i) (S j)))) eqn:D; rbool; unfold segs; rewrite ?seg_cons by ne; cbn [app].
Lemma hard_K1 i j s : inside i j -> In s (cell_at box xs ys t f cell_hard i j) -> (centre box xs ys (fst s) \/ starts_at box xs ys t f i j (fst s)) /\ (centre box xs ys (snd s) \/ ends_at box xs ys t f i j (snd s)).
Proof.
  intros [Hi Hj]. expand i j; cbn [In]; intros I; repeat (destruct I as [<-|I]); try destruct I; cbn [fst snd]; split;
  first [left; exists i, j; cbn [vx vy]; split; assumption|right; unfold starts_at, ends_at, out_in, onH, onV; cbn [vx vy];
    first [left; split; [lra|split; [assumption|reflexivity]]|right; left; split; [lra|split; [assumption|reflexivity]]|right; right; left; split; [lra|split; [reflexivity|assumption]]|right; right; right; split; [lra|split; [reflexivity|assumption]]]].
Qed.
Lemma hard_K2 i j v : inside i j -> ~ centre box xs ys v -> (count_occ RV_dec (map fst (cell_at box xs ys t f cell_hard i j)) v <= 1)%nat /\ (count_occ RV_dec (map snd (cell_at box xs ys t f cell_hard i j)) v <= 1)%nat.
Proof.
  intros [Hi Hj] Nv. expand i j; cbn [map fst snd count_occ]; split; repeat match goal with |- context [RV_dec ?a v] => destruct (RV_dec a v); [subst v; try (exfalso; apply Nv; exists i, j; cbn [vx vy]; split; assumption)|] end; try lia;
  repeat match goal with |- context [RV_dec ?a ?b] => let Q := fresh in destruct (RV_dec a b) as [Q|Q]; [exfalso; revert Q; ne|clear Q] end; lia.
Qed.
Lemma hard_K3 i j : inside i j -> blocks (centre box xs ys) (cell_at box xs ys t f cell_hard i j).
Proof.
  intros [Hi Hj]. assert (HV : forall i j q, onH box xs ys i j q -> ~ centre box xs ys q) by (intros; eapply onH_centre; eauto). assert (VV : forall i j q, onV box xs ys i j q -> ~ centre box xs ys q) by (intros; eapply onV_centre; eauto).
  expand i j; repeat first [apply bl_nil|apply bl_two|apply bl_one];
  first [exists i, j; cbn [vx vy]; split; assumption|apply (HV i j); unfold onH; cbn [vx vy]; split; [assumption|reflexivity]|apply (HV i (S j)); unfold onH; cbn [vx vy]; split; [assumption|reflexivity]|apply (VV i j); unfold onV; cbn [vx vy]; split; [reflexivity|assumption]|apply (VV (S i) j); unfold onV; cbn [vx vy]; split; [reflexivity|assumption]].
Qed.
Lemma hard_loops out : Permutation (map fst out) (map snd out) -> march_hard box xs ys t (smp f) = Some out -> Forall loops (collect_all out).
Proof. intros P E. eapply (out_loops box xs ys t f HX HY X2 Y2 cell_hard); eauto; [apply hard_K1|apply hard_K2|apply hard_K3]. Qed.
End Hard.
