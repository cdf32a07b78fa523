(** Every edge of the grid whose ends are on different sides of the threshold carries an end of a segment. *)
From Coq Require Import Reals ZArith List Arith Bool Lia Lra.
From Verif Require Import Num Spec SpecShapes SpecPolyline SpecMarch.
From Verif.Model Require Import Vector BB Polyline March.
From Verif.Proofs Require Import RTac Geom PolylinePf PolylineTransit MarchPf MarchR MarchLoops MarchTop MarchSide.
Import ListNotations.
Local Open Scope R_scope.
Lemma veq_iff (u w : RV) : vequal u w = true <-> u = w.
Proof. unfold vequal. cbn [neqb numR]. destruct u as [ux uy], w as [wx wy]. cbn [vx vy]. rewrite andb_true_iff, !Reqb_true. split; [intros [-> ->]; reflexivity|intros [= -> ->]; auto]. Qed.
Lemma bal_some (q : RV) (l : list (RV * RV)) : bal q l <> 0%Z -> exists s, In s l /\ (fst s = q \/ snd s = q).
Proof.
  induction l as [|s l IH]; cbn [bal]; [lia|]. intros N. destruct (vequal (fst s) q) eqn:A; [apply veq_iff in A; exists s; cbn; auto|]. destruct (vequal (snd s) q) eqn:B; [apply veq_iff in B; exists s; cbn; auto|]. cbn [one] in N. destruct IH as (s' & I & C); [lia|]. exists s'. cbn. auto.
Qed.
Section Complete.
Variables (hp vp : R -> R -> R -> R -> R -> RV) (cell : R -> R -> R -> R -> R -> R -> R -> R -> R -> list (RV * RV)) (t : R).
Hypothesis CON : forall q, consistent q t hp vp cell.
Hypothesis HY : forall a b x0 x1 y, vy (hp a b x0 x1 y) = y.
Hypothesis VX : forall a b x y0 y1, vx (vp a b x y0 y1) = x.
Lemma off_h (q : RV) a b x0 x1 y : vy q <> y -> eU q t hp a b x0 x1 y = 0%Z.
Proof. intros N. unfold eU. destruct (vequal _ q) eqn:E; [apply veq_iff in E; subst q; rewrite HY in N; contradiction|cbn; lia]. Qed.
Lemma off_v (q : RV) a b x y0 y1 : vx q <> x -> eW q t vp a b x y0 y1 = 0%Z.
Proof. intros N. unfold eW. destruct (vequal _ q) eqn:E; [apply veq_iff in E; subst q; rewrite VX in N; contradiction|cbn; lia]. Qed.
Lemma on_h a b x0 x1 y : a <= t < b \/ b <= t < a -> eU (hp a b x0 x1 y) t hp a b x0 x1 y <> 0%Z.
Proof. intros C. unfold eU. rewrite (proj2 (veq_iff _ _) eq_refl). cbn [nltb numR]. destruct C as [[A B]|[A B]]; rewrite (proj2 (Rltb_true _ _) B), (proj2 (Rltb_false _ _) A); cbn; lia. Qed.
Lemma on_v a b x y0 y1 : a <= t < b \/ b <= t < a -> eW (vp a b x y0 y1) t vp a b x y0 y1 <> 0%Z.
Proof. intros C. unfold eW. rewrite (proj2 (veq_iff _ _) eq_refl). cbn [nltb numR]. destruct C as [[A B]|[A B]]; rewrite (proj2 (Rltb_true _ _) B), (proj2 (Rltb_false _ _) A); cbn; lia. Qed.
Variables (a b c d x0 x1 y0 y1 : R).
Hypothesis (LX : x0 < x1) (LY : y0 < y1).
Ltac fin q := destruct (bal_some q (cell t a b c d x0 x1 y0 y1)) as (s & Is & E); [rewrite (CON q)|exists s; auto].
Lemma bottom : x0 < vx (hp a b x0 x1 y0) < x1 -> a <= t < b \/ b <= t < a -> exists s, In s (cell t a b c d x0 x1 y0 y1) /\ (fst s = hp a b x0 x1 y0 \/ snd s = hp a b x0 x1 y0).
Proof. intros I C. fin (hp a b x0 x1 y0). pose proof (on_h a b x0 x1 y0 C). rewrite (off_h _ c d), !off_v; rewrite ?HY; try lra. lia. Qed.
Lemma top : x0 < vx (hp c d x0 x1 y1) < x1 -> c <= t < d \/ d <= t < c -> exists s, In s (cell t a b c d x0 x1 y0 y1) /\ (fst s = hp c d x0 x1 y1 \/ snd s = hp c d x0 x1 y1).
Proof. intros I C. fin (hp c d x0 x1 y1). pose proof (on_h c d x0 x1 y1 C). rewrite (off_h _ a b), !off_v; rewrite ?HY; try lra. lia. Qed.
Lemma left_ : y0 < vy (vp a c x0 y0 y1) < y1 -> a <= t < c \/ c <= t < a -> exists s, In s (cell t a b c d x0 x1 y0 y1) /\ (fst s = vp a c x0 y0 y1 \/ snd s = vp a c x0 y0 y1).
Proof. intros I C. fin (vp a c x0 y0 y1). pose proof (on_v a c x0 y0 y1 C). rewrite (off_v _ b d), !off_h; rewrite ?VX; try lra. lia. Qed.
Lemma right_ : y0 < vy (vp b d x1 y0 y1) < y1 -> b <= t < d \/ d <= t < b -> exists s, In s (cell t a b c d x0 x1 y0 y1) /\ (fst s = vp b d x1 y0 y1 \/ snd s = vp b d x1 y0 y1).
Proof. intros I C. fin (vp b d x1 y0 y1). pose proof (on_v b d x1 y0 y1 C). rewrite (off_v _ a c), !off_h; rewrite ?VX; try lra. lia. Qed.
End Complete.
Section Grid.
Variables (box : BB R) (xs ys : nat) (t : R) (f : RV -> R).
Hypothesis (HX : bl box < br box) (HY : bb box < bt box) (X2 : (2 <= xs)%nat) (Y2 : (2 <= ys)%nat).
Notation gx := (grid_x box xs). Notation gy := (grid_y box ys). Notation nd i j := (node box xs ys i j).
Variables (hp vp : R -> R -> R -> R -> R -> RV) (cell : R -> R -> R -> R -> R -> R -> R -> R -> R -> list (RV * RV)).
Hypothesis CON : forall q, consistent q t hp vp cell.
Hypothesis HHY : forall a b x0 x1 y, vy (hp a b x0 x1 y) = y.
Hypothesis VVX : forall a b x y0 y1, vx (vp a b x y0 y1) = x.
Lemma in_march out i j s : march_cells box xs ys t (smp f) cell = Some out -> (S i < xs)%nat -> (S j < ys)%nat -> In s (cell_at box xs ys t f cell i j) -> In s out.
Proof. intros E A B I. rewrite (march_pure _ _ _ _ _ _ _ E). apply in_flat_map. exists j. split; [apply in_seq; lia|]. apply in_flat_map. exists i. split; [apply in_seq; lia|exact I]. Qed.
Lemma edge_h out i j : march_cells box xs ys t (smp f) cell = Some out -> (S i < xs)%nat -> (j < ys)%nat -> let a := f (nd i j) in let b := f (nd (S i) j) in let q := hp a b (gx i) (gx (S i)) (gy j) in
  gx i < vx q < gx (S i) -> a <= t < b \/ b <= t < a -> exists s, In s out /\ (fst s = q \/ snd s = q).
Proof.
  intros E Hi Hj a b q I C. pose proof (gx_mono box xs ys HX X2 Y2 i (S i) ltac:(lia)) as LX.
  destruct (le_lt_dec ys (S j)) as [T|T].
  - destruct j as [|j]; [lia|]. pose proof (gy_mono box xs ys HY X2 Y2 j (S j) ltac:(lia)) as LY.
    destruct (top hp vp cell t CON HHY VVX (f (nd i j)) (f (nd (S i) j)) a b (gx i) (gx (S i)) (gy j) (gy (S j)) LY I C) as (s & A & B). exists s. split; [|exact B]. eapply (in_march out i j); eauto. unfold cell_at. rewrite !nd_node. exact A.
  - pose proof (gy_mono box xs ys HY X2 Y2 j (S j) ltac:(lia)) as LY.
    destruct (bottom hp vp cell t CON HHY VVX a b (f (nd i (S j))) (f (nd (S i) (S j))) (gx i) (gx (S i)) (gy j) (gy (S j)) LY I C) as (s & A & B). exists s. split; [|exact B]. eapply (in_march out i j); eauto. unfold cell_at. rewrite !nd_node. exact A.
Qed.
Lemma edge_v out i j : march_cells box xs ys t (smp f) cell = Some out -> (i < xs)%nat -> (S j < ys)%nat -> let a := f (nd i j) in let c := f (nd i (S j)) in let q := vp a c (gx i) (gy j) (gy (S j)) in
  gy j < vy q < gy (S j) -> a <= t < c \/ c <= t < a -> exists s, In s out /\ (fst s = q \/ snd s = q).
Proof.
  intros E Hi Hj a c q I C. pose proof (gy_mono box xs ys HY X2 Y2 j (S j) ltac:(lia)) as LY.
  destruct (le_lt_dec xs (S i)) as [T|T].
  - destruct i as [|i]; [lia|]. pose proof (gx_mono box xs ys HX X2 Y2 i (S i) ltac:(lia)) as LX.
    destruct (right_ hp vp cell t CON HHY VVX (f (nd i j)) a (f (nd i (S j))) c (gx i) (gx (S i)) (gy j) (gy (S j)) LX I C) as (s & A & B). exists s. split; [|exact B]. eapply (in_march out i j); eauto. unfold cell_at. rewrite !nd_node. exact A.
  - pose proof (gx_mono box xs ys HX X2 Y2 i (S i) ltac:(lia)) as LX.
    destruct (left_ hp vp cell t CON HHY VVX a (f (nd (S i) j)) c (f (nd (S i) (S j))) (gx i) (gx (S i)) (gy j) (gy (S j)) LX I C) as (s & A & B). exists s. split; [|exact B]. eapply (in_march out i j); eauto. unfold cell_at. rewrite !nd_node. exact A.
Qed.
End Grid.
Section Top.
Variables (box : BB R) (xs ys : nat) (t : R) (f : RV -> R).
Hypothesis (HX : bl box < br box) (HY : bb box < bt box) (X2 : (2 <= xs)%nat) (Y2 : (2 <= ys)%nat).
Notation gx := (grid_x box xs). Notation gy := (grid_y box ys). Notation nd i j := (node box xs ys i j).
Lemma soft_complete out u w : march_soft box xs ys t (smp f) = Some out -> neighbours box xs ys u w -> f w < t < f u -> exists s, In s out /\ (fst s = seg_point u w ((t - f u) / (f w - f u)) \/ snd s = seg_point u w ((t - f u) / (f w - f u))).
Proof.
  intros M N C. assert (CON : forall q : RV, consistent q t (soft_h t) (soft_v t) cell_soft) by (intros q; apply soft_consistent; [exact R_eq_sym|exact R_eq_trans]).
  destruct N as [(i & j & Hi & Hj & N)|(i & j & Hi & Hj & N)].
  - pose proof (gx_mono box xs ys HX X2 Y2 i (S i) ltac:(lia)) as LX.
    assert (K : seg_point u w ((t - f u) / (f w - f u)) = soft_h t (f (nd i j)) (f (nd (S i) j)) (gx i) (gx (S i)) (gy j)).
    { unfold soft_h. rewrite mid_h. change (mkV (gx i) (gy j)) with (mkV (gx i) (gy j)). rewrite !nd_node. destruct N as [[-> ->]|[-> ->]]; [reflexivity|]. apply seg_point_flip. lra. }
    rewrite K. apply (edge_h box xs ys t f HX HY X2 Y2 (soft_h t) (soft_v t) cell_soft CON); auto.
    + unfold soft_h. cbn [vx]. apply mid_open; auto. destruct N as [[-> ->]|[-> ->]]; lra.
    + destruct N as [[-> ->]|[-> ->]]; lra.
  - pose proof (gy_mono box xs ys HY X2 Y2 j (S j) ltac:(lia)) as LY.
    assert (K : seg_point u w ((t - f u) / (f w - f u)) = soft_v t (f (nd i j)) (f (nd i (S j))) (gx i) (gy j) (gy (S j))).
    { unfold soft_v. rewrite mid_v. rewrite !nd_node. destruct N as [[-> ->]|[-> ->]]; [reflexivity|]. apply seg_point_flip. lra. }
    rewrite K. apply (edge_v box xs ys t f HX HY X2 Y2 (soft_h t) (soft_v t) cell_soft CON); auto.
    + unfold soft_v. cbn [vy]. apply mid_open; auto. destruct N as [[-> ->]|[-> ->]]; lra.
    + destruct N as [[-> ->]|[-> ->]]; lra.
Qed.
Lemma hard_complete out u w : march_hard box xs ys t (smp f) = Some out -> neighbours box xs ys u w -> f w <= t < f u -> exists s, In s out /\ (fst s = seg_point u w (1 / 2) \/ snd s = seg_point u w (1 / 2)).
Proof.
  intros M N C. assert (CON : forall q : RV, consistent q t hard_h hard_v cell_hard) by (intros q; apply hard_consistent; [exact R_eq_sym|exact R_eq_trans]).
  destruct N as [(i & j & Hi & Hj & N)|(i & j & Hi & Hj & N)].
  - pose proof (gx_mono box xs ys HX X2 Y2 i (S i) ltac:(lia)) as LX.
    assert (K : seg_point u w (1 / 2) = hard_h (f (nd i j)) (f (nd (S i) j)) (gx i) (gx (S i)) (gy j)).
    { unfold hard_h. rewrite half_eq. destruct N as [[-> ->]|[-> ->]]; rewrite <- !nd_node; unfold seg_point; cbn [vx vy]; f_equal; lra. }
    rewrite K. apply (edge_h box xs ys t f HX HY X2 Y2 hard_h hard_v cell_hard CON); auto.
    + unfold hard_h. cbn [vx]. apply half_open; auto.
    + destruct N as [[-> ->]|[-> ->]]; lra.
  - pose proof (gy_mono box xs ys HY X2 Y2 j (S j) ltac:(lia)) as LY.
    assert (K : seg_point u w (1 / 2) = hard_v (f (nd i j)) (f (nd i (S j))) (gx i) (gy j) (gy (S j))).
    { unfold hard_v. rewrite half_eq. destruct N as [[-> ->]|[-> ->]]; rewrite <- !nd_node; unfold seg_point; cbn [vx vy]; f_equal; lra. }
    rewrite K. apply (edge_v box xs ys t f HX HY X2 Y2 hard_h hard_v cell_hard CON); auto.
    + unfold hard_v. cbn [vy]. apply half_open; auto.
    + destruct N as [[-> ->]|[-> ->]]; lra.
Qed.
End Top.
