(** Where the segments lie, and which side is inside. *)
From Coq Require Import Reals ZArith List Arith Bool Lia Lra Permutation.
From Verif Require Import Num Spec SpecShapes SpecPolyline SpecMarch.
From Verif.Model Require Import Vector BB Polyline March.
From Verif.Proofs Require Import RTac Geom PolylinePf PolylineTransit MarchPf MarchR MarchLoops MarchTop.
Import ListNotations.
Local Open Scope R_scope.

Section Side.
Variables (box : BB R) (xs ys : nat) (t : R) (f : RV -> R).
Notation gx := (grid_x box xs). Notation gy := (grid_y box ys). Notation nd i j := (mkV (gx i) (gy j)).
Hypothesis (HX : bl box < br box) (HY : bb box < bt box).
Notation nb := (neighbours box xs ys).
Lemma nb_right i j : (S i < xs)%nat -> (j < ys)%nat -> nb (nd i j) (nd (S i) j) /\ nb (nd (S i) j) (nd i j).
Proof. intros Hi Hj. rewrite !nd_node. split; left; exists i, j; repeat split; auto. Qed.
Lemma nb_up i j : (i < xs)%nat -> (S j < ys)%nat -> nb (nd i j) (nd i (S j)) /\ nb (nd i (S j)) (nd i j).
Proof. intros Hi Hj. rewrite !nd_node. split; right; exists i, j; repeat split; auto. Qed.
(** the fraction from the inside end, whichever end that is *)
Lemma cross_ab u w p s0 s1 : nb u w -> f u = s0 -> f w = s1 -> s1 <= t < s0 -> p = seg_point u w ((t - s0) / (s1 - s0)) -> crossing box xs ys f t p.
Proof. intros N <- <- L ->. exists u, w, ((t - f u) / (f w - f u)). split; [exact N|]. split; [exact L|]. split; [apply frac_in; lra|]. split; [reflexivity|]. field. lra. Qed.
Lemma mid_h x0 x1 y s0 s1 : mkV (midlerp x0 x1 s0 s1 t) y = seg_point (mkV x0 y) (mkV x1 y) ((t - s0) / (s1 - s0)).
Proof. unfold seg_point. cbn [vx vy]. rewrite mid_eq. apply vec_eq; cbn [vx vy]; ring. Qed.
Lemma mid_v x y0 y1 s0 s1 : mkV x (midlerp y0 y1 s0 s1 t) = seg_point (mkV x y0) (mkV x y1) ((t - s0) / (s1 - s0)).
Proof. unfold seg_point. cbn [vx vy]. rewrite mid_eq. apply vec_eq; cbn [vx vy]; ring. Qed.
Lemma seg_point_flip u w s0 s1 : s0 <> s1 -> seg_point u w ((t - s0) / (s1 - s0)) = seg_point w u ((t - s1) / (s0 - s1)).
Proof. intros N. unfold seg_point. apply vec_eq; cbn [vx vy]; field; lra. Qed.
Lemma cross_h i j s0 s1 : (S i < xs)%nat -> (j < ys)%nat -> f (nd i j) = s0 -> f (nd (S i) j) = s1 -> s1 <= t < s0 \/ s0 <= t < s1 -> crossing box xs ys f t (mkV (midlerp (gx i) (gx (S i)) s0 s1 t) (gy j)).
Proof. intros Hi Hj E0 E1 [L|L]; rewrite mid_h; [eapply (cross_ab (nd i j) (nd (S i) j)); eauto; now apply nb_right|]. rewrite seg_point_flip by lra. eapply (cross_ab (nd (S i) j) (nd i j)); eauto. now apply nb_right. Qed.
Lemma cross_v i j s0 s1 : (i < xs)%nat -> (S j < ys)%nat -> f (nd i j) = s0 -> f (nd i (S j)) = s1 -> s1 <= t < s0 \/ s0 <= t < s1 -> crossing box xs ys f t (mkV (gx i) (midlerp (gy j) (gy (S j)) s0 s1 t)).
Proof. intros Hi Hj E0 E1 [L|L]; rewrite mid_v; [eapply (cross_ab (nd i j) (nd i (S j))); eauto; now apply nb_up|]. rewrite seg_point_flip by lra. eapply (cross_ab (nd i (S j)) (nd i j)); eauto. now apply nb_up. Qed.
Lemma soft_crossings out s : march_soft box xs ys t (smp f) = Some out -> In s out -> crossing box xs ys f t (fst s) /\ crossing box xs ys f t (snd s).
Proof.
  intros E I. destruct (march_in _ _ _ _ _ _ _ _ E I) as (i & j & Hi & Hj & C). unfold cell_at in C. apply soft_in in C as [A B]. split; [destruct A as [[L ->]|[[L ->]|[[L ->]|[L ->]]]]|destruct B as [[L ->]|[[L ->]|[[L ->]|[L ->]]]]]; (apply cross_h || apply cross_v); auto; lia.
Qed.
(** a point of the cell *)
Definition in_cell i j (q : RV) : Prop := gx i <= vx q <= gx (S i) /\ gy j <= vy q <= gy (S j).
Definition sided (s : RV * RV) : Prop := exists u w, nb u w /\ f w <= t < f u /\ 0 <= turn (fst s) (snd s) u /\ turn (fst s) (snd s) w <= 0.
Lemma mul_nonneg x y : 0 <= x -> 0 <= y -> 0 <= x * y. Proof. apply Rmult_le_pos. Qed.
Lemma mid_in x0 x1 s0 s1 : x0 <= x1 -> s1 <= t < s0 \/ s0 <= t < s1 -> x0 <= midlerp x0 x1 s0 s1 t <= x1.
Proof. intros Hx L. rewrite mid_eq. apply frac_in in L. set (k := _ / _) in *. assert (0 <= k * (x1 - x0)) by (apply Rmult_le_pos; lra). assert (k * (x1 - x0) <= 1 * (x1 - x0)) by (apply Rmult_le_compat_r; lra). lra. Qed.
(** leaving a horizontal edge upwards from p: left node u, right node w *)
Lemma side_h x0 x1 p q y : x0 <= p <= x1 -> (y <= vy q -> 0 <= turn (mkV p y) q (mkV x0 y) /\ turn (mkV p y) q (mkV x1 y) <= 0) /\ (vy q <= y -> 0 <= turn (mkV p y) q (mkV x1 y) /\ turn (mkV p y) q (mkV x0 y) <= 0).
Proof.
  intros Hp. unfold turn. cbn [vx vy]. split; intros Hq.
  - assert (0 <= (vy q - y) * (p - x0)) by (apply Rmult_le_pos; lra). assert (0 <= (vy q - y) * (x1 - p)) by (apply Rmult_le_pos; lra). lra.
  - assert (0 <= (y - vy q) * (p - x0)) by (apply Rmult_le_pos; lra). assert (0 <= (y - vy q) * (x1 - p)) by (apply Rmult_le_pos; lra). lra.
Qed.
Lemma side_v y0 y1 p q x : y0 <= p <= y1 -> (x <= vx q -> 0 <= turn (mkV x p) q (mkV x y1) /\ turn (mkV x p) q (mkV x y0) <= 0) /\ (vx q <= x -> 0 <= turn (mkV x p) q (mkV x y0) /\ turn (mkV x p) q (mkV x y1) <= 0).
Proof.
  intros Hp. unfold turn. cbn [vx vy]. split; intros Hq.
  - assert (0 <= (vx q - x) * (p - y0)) by (apply Rmult_le_pos; lra). assert (0 <= (vx q - x) * (y1 - p)) by (apply Rmult_le_pos; lra). lra.
  - assert (0 <= (x - vx q) * (p - y0)) by (apply Rmult_le_pos; lra). assert (0 <= (x - vx q) * (y1 - p)) by (apply Rmult_le_pos; lra). lra.
Qed.
Lemma soft_sided out s : (2 <= xs)%nat -> (2 <= ys)%nat -> march_soft box xs ys t (smp f) = Some out -> In s out -> sided s.
Proof.
  intros X2 Y2 E I. destruct (march_in _ _ _ _ _ _ _ _ E I) as (i & j & Hi & Hj & C). unfold cell_at in C. apply soft_in in C as [A B].
  assert (Gx : gx i < gx (S i)) by (eapply gx_mono; eauto; lia). assert (Gy : gy j < gy (S j)) by (eapply gy_mono; eauto; lia).
  assert (Q : in_cell i j (snd s)). { destruct B as [[L ->]|[[L ->]|[[L ->]|[L ->]]]]; unfold in_cell; cbn [vx vy]; split; try lra; apply mid_in; lra. } destruct Q as [Qx Qy]. unfold sided.
  destruct A as [[L ->]|[[L ->]|[[L ->]|[L ->]]]]; match goal with |- context [midlerp ?x0 ?x1 ?a ?b ?t] => assert (M := mid_in x0 x1 a b ltac:(lra) ltac:(lra)) end.
  - exists (nd i j), (nd (S i) j). split; [apply nb_right; lia|]. split; [exact L|]. apply (proj1 (side_h _ _ _ (snd s) (gy j) M)). lra.
  - exists (nd (S i) (S j)), (nd i (S j)). split; [apply nb_right; lia|]. split; [exact L|]. apply (proj2 (side_h _ _ _ (snd s) (gy (S j)) M)). lra.
  - exists (nd i (S j)), (nd i j). split; [apply nb_up; lia|]. split; [exact L|]. apply (proj1 (side_v _ _ _ (snd s) (gx i) M)). lra.
  - exists (nd (S i) j), (nd (S i) (S j)). split; [apply nb_up; lia|]. split; [exact L|]. apply (proj2 (side_v _ _ _ (snd s) (gx (S i)) M)). lra.
Qed.
(** hard: ends are midpoints of crossed edges or centres of cells *)
Definition midpoint (u w : RV) : RV := seg_point u w (1 / 2).
Definition mid_crossing (p : RV) : Prop := exists u w, nb u w /\ f w <= t < f u /\ p = midpoint u w.
Definition cell_centre (p : RV) : Prop := exists i j, (S i < xs)%nat /\ (S j < ys)%nat /\ p = midpoint (node box xs ys i j) (node box xs ys (S i) (S j)).
Lemma half_eq (x0 x1 : R) : nlerp x0 x1 nhalf = (x0 + x1) / 2.
Proof. unfold nlerp. unR. lra. Qed.
Ltac MCt N := match goal with MC : forall u w q, nb u w -> _ |- _ => apply (MC _ _ _ N); [lra|cbn [vx vy]; apply vec_eq; cbn [vx vy]; lra] end.
Ltac SDt N := match goal with SD : forall s u w, nb u w -> _ |- _ => apply (SD _ _ _ N); [lra|unfold turn; cbn [fst snd vx vy]; lra|unfold turn; cbn [fst snd vx vy]; lra] end.
Lemma hard_sided out s : (2 <= xs)%nat -> (2 <= ys)%nat -> march_hard box xs ys t (smp f) = Some out -> In s out -> sided s /\ (mid_crossing (fst s) \/ cell_centre (fst s)) /\ (mid_crossing (snd s) \/ cell_centre (snd s)).
Proof.
  intros X2 Y2 E I. destruct (march_in _ _ _ _ _ _ _ _ E I) as (i & j & Hi & Hj & C).
  assert (Gx : gx i < gx (S i)) by (eapply gx_mono; eauto; lia). assert (Gy : gy j < gy (S j)) by (eapply gy_mono; eauto; lia).
  destruct (nb_right i j Hi ltac:(lia)) as [R1 R1']. destruct (nb_right i (S j) Hi Hj) as [R2 R2']. destruct (nb_up i j ltac:(lia) Hj) as [U1 U1']. destruct (nb_up (S i) j Hi Hj) as [U2 U2'].
  assert (CC : forall q, q = mkV ((gx i + gx (S i)) / 2) ((gy j + gy (S j)) / 2) -> cell_centre q).
  { intros q ->. exists i, j. repeat split; auto. rewrite <- !nd_node. unfold midpoint, seg_point. cbn [vx vy]. apply vec_eq; cbn [vx vy]; lra. }
  assert (MC : forall u w q, nb u w -> f w <= t < f u -> q = mkV ((vx u + vx w) / 2) ((vy u + vy w) / 2) -> mid_crossing q).
  { intros u w q N L ->. exists u, w. repeat split; try apply L; auto. unfold midpoint, seg_point. apply vec_eq; cbn [vx vy]; lra. }
  assert (HP : 0 < (gx (S i) - gx i) * (gy (S j) - gy j)) by (apply Rmult_lt_0_compat; lra).
  assert (SD : forall s u w, nb u w -> f w <= t < f u -> 0 <= turn (fst s) (snd s) u -> turn (fst s) (snd s) w <= 0 -> sided s) by (intros s' u w ? ? ? ?; exists u, w; auto).
  unfold cell_at, cell_hard in C. cbv zeta in C. rewrite !half_eq in C. cbn [nltb numR] in C.
  destruct (Rltb t (f (nd i j))) eqn:A, (Rltb t (f (nd (S i) j))) eqn:B, (Rltb t (f (nd i (S j)))) eqn:D, (Rltb t (f (nd (S i) (S j)))) eqn:F0; rbool; unfold segs in C; rewrite ?in_app_iff in C; try (destruct C; fail); repeat (destruct C as [C|C]); apply seg_in in C; subst s; cbn [fst snd];
  (split; [|split; (first [right; apply CC; reflexivity|left; first [MCt R1|MCt R1'|MCt R2|MCt R2'|MCt U1|MCt U1'|MCt U2|MCt U2']])]);
  (first [SDt R1|SDt R1'|SDt R2|SDt R2'|SDt U1|SDt U1'|SDt U2|SDt U2']).
Qed.
End Side.
