(** Marching squares over the reals, for a sampling function. *)
From Coq Require Import Reals ZArith List Arith Bool Lia Lra Permutation.
From Verif Require Import Num Spec SpecShapes SpecPolyline SpecMarch.
From Verif.Model Require Import Vector BB Polyline March.
From Verif.Proofs Require Import RTac Geom PolylinePf PolylineTransit MarchPf.
Import ListNotations.
Local Open Scope R_scope.

Section MarchR.
Variables (box : BB R) (xs ys : nat) (t : R) (f : RV -> R) (cell : R -> R -> R -> R -> R -> R -> R -> R -> R -> list (RV * RV)).
Notation gx := (grid_x box xs). Notation gy := (grid_y box ys).
Notation nd i j := (mkV (gx i) (gy j)).
Definition smp : nat -> RV -> R := fun _ => f.
Lemma gx_node i : gx i = bl box + INR i / (INR xs - 1) * (br box - bl box).
Proof. unfold grid_x, nat_num, nlerp. unR. rewrite minus_IZR, <- INR_IZR_INZ, <- INR_IZR_INZ. unfold Rdiv. ring. Qed.
Lemma gy_node j : gy j = bb box + INR j / (INR ys - 1) * (bt box - bb box).
Proof. unfold grid_y, nat_num, nlerp. unR. rewrite minus_IZR, <- INR_IZR_INZ, <- INR_IZR_INZ. unfold Rdiv. ring. Qed.
Lemma gx0 : gx 0 = bl box. Proof. rewrite gx_node. cbn [INR]. unfold Rdiv. ring. Qed.
Lemma gy0 : gy 0 = bb box. Proof. rewrite gy_node. cbn [INR]. unfold Rdiv. ring. Qed.
Lemma nd_node i j : nd i j = node box xs ys i j. Proof. unfold node. now rewrite gx_node, gy_node. Qed.
Definition cell_at i j : list (RV * RV) := cell t (f (nd i j)) (f (nd (S i) j)) (f (nd i (S j))) (f (nd (S i) (S j))) (gx i) (gx (S i)) (gy j) (gy (S j)).
Lemma row_pure j : forall n k i, march_row box xs t smp cell k i (f (nd i j)) (f (nd i (S j))) (map (fun i => f (nd i j)) (seq (S i) n)) (gy j) (gy (S j)) =
  (map (fun i => f (nd i (S j))) (seq (S i) n), flat_map (fun i => cell_at i j) (seq i n)).
Proof.
  induction n as [|n IH]; intros k i; [reflexivity|]. cbn [seq map march_row]. change (smp k (mkV (gx (S i)) (gy (S j)))) with (f (nd (S i) (S j))). rewrite IH. cbn [flat_map]. reflexivity.
Qed.
Lemma rows_pure : forall n k j, (0 < xs)%nat -> march_rows box xs ys t smp cell n k j (map (fun i => f (nd i j)) (seq 0 xs)) = Some (flat_map (fun j => flat_map (fun i => cell_at i j) (seq 0 (xs - 1))) (seq j n)).
Proof.
  induction n as [|n IH]; intros k j Hx; [reflexivity|]. cbn [march_rows]. assert (SQ : seq 0 xs = 0%nat :: seq 1 (xs - 1)) by (replace xs with (S (xs - 1)) at 1 by lia; reflexivity). rewrite SQ at 1. cbn [map]. rewrite <- gx0. change (smp k (mkV (gx 0) (gy (S j)))) with (f (nd 0 (S j))). rewrite row_pure.
  change (f (nd 0 (S j)) :: map (fun i => f (nd i (S j))) (seq 1 (xs - 1))) with (map (fun i => f (nd i (S j))) (0%nat :: seq 1 (xs - 1))). rewrite <- SQ. rewrite IH by exact Hx. reflexivity.
Qed.
Lemma march_pure out : march_cells box xs ys t smp cell = Some out -> out = flat_map (fun j => flat_map (fun i => cell_at i j) (seq 0 (xs - 1))) (seq 0 (ys - 1)).
Proof.
  unfold march_cells. destruct (Nat.eq_dec xs 0) as [->|X].
  - destruct (ys - 1)%nat eqn:Y; cbn; [intros [= <-]; reflexivity|discriminate].
  - unfold first_row. replace (map (fun i => smp i (mkV (gx i) (bb box))) (seq 0 xs)) with (map (fun i => f (nd i 0)) (seq 0 xs)) by (apply map_ext; intros i; unfold smp; now rewrite gy0). rewrite rows_pure by lia. now intros [= <-].
Qed.
Lemma march_in out s : march_cells box xs ys t smp cell = Some out -> In s out -> exists i j, (S i < xs)%nat /\ (S j < ys)%nat /\ In s (cell_at i j).
Proof. intros E I. apply march_pure in E. subst out. apply in_flat_map in I as (j & Hj & I). apply in_flat_map in I as (i & Hi & I). apply in_seq in Hj, Hi. exists i, j. repeat split; auto; lia. Qed.
End MarchR.

(** ** what is in a cell *)
Section Cell.
Variables (t a b c d x0 x1 y0 y1 : R).
Lemma seg_in (v0 v1 : RV) s : In s (seg v0 v1) -> s = (v1, v0).
Proof. unfold seg. destruct (vequal v0 v1); [intros []|intros [<-|[]]; reflexivity]. Qed.
Notation Bo := (mkV (midlerp x0 x1 a b t) y0). Notation To := (mkV (midlerp x0 x1 c d t) y1). Notation Le := (mkV x0 (midlerp y0 y1 a c t)). Notation Ri := (mkV x1 (midlerp y0 y1 b d t)).
Definition starts_here (q : RV) : Prop := (b <= t < a /\ q = Bo) \/ (c <= t < d /\ q = To) \/ (a <= t < c /\ q = Le) \/ (d <= t < b /\ q = Ri).
Definition ends_here (q : RV) : Prop := (a <= t < b /\ q = Bo) \/ (d <= t < c /\ q = To) \/ (c <= t < a /\ q = Le) \/ (b <= t < d /\ q = Ri).
Lemma soft_in s : In s (cell_soft t a b c d x0 x1 y0 y1) -> starts_here (fst s) /\ ends_here (snd s).
Proof.
  unfold cell_soft, starts_here, ends_here. cbn [nltb numR]. destruct (Rltb t a) eqn:A, (Rltb t b) eqn:B, (Rltb t c) eqn:C, (Rltb t d) eqn:D; rbool; intros I; try (destruct I; fail); rewrite ?in_app_iff in I; try destruct I as [I|I]; apply seg_in in I; subst s; cbn [fst snd]; split;
    first [left; split; [lra|reflexivity]|right; left; split; [lra|reflexivity]|right; right; left; split; [lra|reflexivity]|right; right; right; split; [lra|reflexivity]].
Qed.
End Cell.
