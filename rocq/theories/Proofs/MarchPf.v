(** Marching squares: at every point off the border as many segments start as end. *)
From Coq Require Import Reals ZArith List Arith Bool Lia Lra Permutation.
From Flocq Require Import IEEE754.BinarySingleNaN.
From Verif Require Import Num Spec SpecPolyline.
From Verif.Model Require Import Vector BB Polyline March.
From Verif.Proofs Require Import RTac PolylinePf.
Import ListNotations.
Local Open Scope Z_scope.

Definition one (b : bool) : Z := if b then 1 else 0.
Section Gen.
Context {T : Type} `{Num T}.
Notation V := (Vec T).
Variable eq_sym : forall x y : T, neqb x y = neqb y x.
Variable eq_trans : forall x y z : T, neqb x y = true -> neqb y z = true -> neqb x z = true.

Lemma veq_sym (u v : V) : vequal u v = vequal v u.
Proof. unfold vequal. now rewrite (eq_sym (vx u)), (eq_sym (vy u)). Qed.
Lemma veq_trans (u v w : V) : vequal u v = true -> vequal v w = true -> vequal u w = true.
Proof. unfold vequal. rewrite !andb_true_iff. intros [] []. split; eauto. Qed.
Lemma veq_same (u v q : V) : vequal u v = true -> vequal u q = vequal v q.
Proof. intros E. destruct (vequal u q) eqn:A; destruct (vequal v q) eqn:B; auto; exfalso; [assert (vequal v q = true) by (eapply veq_trans; [rewrite veq_sym; exact E|exact A])|assert (vequal u q = true) by (eapply veq_trans; eauto)]; congruence. Qed.

Variable q : V.
(** starts minus ends at q *)
Fixpoint bal (l : list (V * V)) : Z := match l with [] => 0 | s :: l => one (vequal (fst s) q) - one (vequal (snd s) q) + bal l end.
Lemma bal_app l m : bal (l ++ m) = bal l + bal m.
Proof. induction l; cbn [bal app]; lia. Qed.
Lemma bal_seg v0 v1 : bal (seg v0 v1) = one (vequal v1 q) - one (vequal v0 q).
Proof. unfold seg. destruct (vequal v0 v1) eqn:E; cbn [bal fst snd]; [rewrite (veq_same _ _ q E)|]; lia. Qed.
Lemma bal_segs a b c : bal (segs a b c) = one (vequal c q) - one (vequal a q).
Proof. unfold segs. rewrite bal_app, !bal_seg. lia. Qed.
Lemma bal_count l : bal l = Z.of_nat (length (filter (fun s => vequal (fst s) q) l)) - Z.of_nat (length (filter (fun s => vequal (snd s) q) l)).
Proof. induction l as [|s l IH]; [reflexivity|]. cbn [bal filter]. destruct (vequal (fst s) q), (vequal (snd s) q); cbn [one length]; lia. Qed.

Section Cells.
Variable t : T.
Variables (hp : T -> T -> T -> T -> T -> V) (vp : T -> T -> T -> T -> T -> V) (cell : T -> T -> T -> T -> T -> T -> T -> T -> T -> list (V * V)).
Definition eU (a b x0 x1 y : T) : Z := (one (nltb t a) - one (nltb t b)) * one (vequal (hp a b x0 x1 y) q).
Definition eW (a c x y0 y1 : T) : Z := (one (nltb t a) - one (nltb t c)) * one (vequal (vp a c x y0 y1) q).
Definition consistent := forall a b c d x0 x1 y0 y1, bal (cell t a b c d x0 x1 y0 y1) = eU a b x0 x1 y0 - eU c d x0 x1 y1 + eW b d x1 y0 y1 - eW a c x0 y0 y1.
Hypothesis CON : consistent.
Variables (box : BB T) (xs ys : nat) (sample : nat -> V -> T).
Notation gx := (grid_x box xs). Notation gy := (grid_y box ys).
Fixpoint uline (i : nat) (b : T) (l : list T) (y : T) : Z := match l with [] => 0 | b' :: l => eU b b' (gx i) (gx (S i)) y + uline (S i) b' l y end.
Lemma row_bal : forall buf k i b d y0 y1 buf' out, march_row box xs t sample cell k i b d buf y0 y1 = (buf', out) ->
  length buf' = length buf /\ bal out = uline i b buf y0 - uline i d buf' y1 + eW (last buf b) (last buf' d) (gx (i + length buf)%nat) y0 y1 - eW b d (gx i) y0 y1.
Proof.
  induction buf as [|b' buf IH]; intros k i b d y0 y1 buf' out E; cbn [march_row] in E.
  - injection E as <- <-. cbn [length uline last bal]. rewrite Nat.add_0_r. split; [reflexivity|lia].
  - destruct (march_row _ _ _ _ _ (S k) (S i) b' _ buf y0 y1) as [buf'' out'] eqn:R. injection E as <- <-. set (d' := sample k (mkV (gx (S i)) y1)) in *. destruct (IH _ _ _ _ _ _ _ _ R) as [L B]. split; [cbn; lia|].
    rewrite bal_app, B, CON. cbn [uline]. assert (LA : forall (l : list T) x z, last (x :: l) z = last l x). { intros l. induction l as [|a l IHl]; intros x z; [reflexivity|]. change (last (x :: a :: l) z) with (last (a :: l) z). rewrite IHl. symmetry. apply IHl. }
    rewrite !LA. cbn [length]. replace (i + S (length buf))%nat with (S i + length buf)%nat by lia. lia.
Qed.
(** the borders are clear: no crossing of the first or last row or column is at q *)
Variables PL PR PB PT : T -> Prop.
Hypothesis HL : forall a c y0 y1, PL a -> PL c -> eW a c (gx 0) y0 y1 = 0.
Hypothesis HR : forall a c y0 y1, PR a -> PR c -> eW a c (gx (xs - 1)) y0 y1 = 0.
Hypothesis HB : forall a b x0 x1, PB a -> PB b -> eU a b x0 x1 (gy 0) = 0.
Hypothesis HT : forall a b x0 x1, PT a -> PT b -> eU a b x0 x1 (gy (ys - 1)) = 0.
Hypothesis SL : forall k j, (S j < ys)%nat -> PL (sample k (mkV (bl box) (gy (S j)))).
Hypothesis SR : forall k j, (S j < ys)%nat -> PR (sample k (mkV (gx (xs - 1)) (gy (S j)))).
Hypothesis SB : forall k i, (i < xs)%nat -> PB (sample k (mkV (gx i) (bb box))).
Hypothesis SBL : forall k, PL (sample k (mkV (gx 0) (bb box))).
Hypothesis SBR : forall k, PR (sample k (mkV (gx (xs - 1)) (bb box))).
Hypothesis ST : forall k i, (i < xs)%nat -> PT (sample k (mkV (gx i) (gy (ys - 1)))).
Hypothesis STL : forall k, PT (sample k (mkV (bl box) (gy (ys - 1)))).
(** column 1 alone: the left border is the right border *)
Hypothesis SLR : xs = 1%nat -> forall k j, (S j < ys)%nat -> PR (sample k (mkV (bl box) (gy (S j)))).
Lemma row_new : forall buf k i b d y0 y1, Forall (fun v => exists k i', (i' <= i + length buf)%nat /\ v = sample k (mkV (gx i') y1)) (fst (march_row box xs t sample cell k i b d buf y0 y1)).
Proof.
  induction buf as [|b' buf IH]; intros; cbn [march_row]; [constructor|]. destruct (march_row _ _ _ _ _ (S k) (S i) b' _ buf y0 y1) as [buf'' out'] eqn:R. cbn [fst]. constructor; [exists k, (S i); cbn [length]; split; [lia|reflexivity]|]. specialize (IH (S k) (S i) b' (sample k (mkV (gx (S i)) y1)) y0 y1). rewrite R in IH. eapply Forall_impl; [|exact IH]. cbn beta. intros v (k' & i' & L & E). exists k', i'. cbn [length]. split; [lia|exact E].
Qed.
Lemma row_last : forall buf k i b d y0 y1, buf <> [] -> exists k', last (fst (march_row box xs t sample cell k i b d buf y0 y1)) d = sample k' (mkV (gx (i + length buf)%nat) y1).
Proof.
  induction buf as [|b' buf IH]; intros k i b d y0 y1 NE; [contradiction|]. cbn [march_row]. destruct (march_row _ _ _ _ _ (S k) (S i) b' _ buf y0 y1) as [buf'' out'] eqn:R. cbn [fst]. set (d' := sample k (mkV (gx (S i)) y1)) in *. destruct buf as [|b'' buf].
  - cbn in R. injection R as <- <-. cbn [last length]. exists k. unfold d'. now replace (i + 1)%nat with (S i) by lia.
  - destruct (IH (S k) (S i) b' d' y0 y1 ltac:(discriminate)) as [k' E]. rewrite R in E. cbn [fst] in E. exists k'. assert (L := proj1 (row_bal _ _ _ _ _ _ _ _ _ R)). destruct buf'' as [|z buf'']; [discriminate|]. change (last (d' :: z :: buf'') d) with (last (z :: buf'') d). replace (last (z :: buf'') d) with (last (z :: buf'') d'). rewrite E. cbn [length]. do 2 f_equal. f_equal. lia.
    clear. revert z. induction buf'' as [|a l IH]; intros z; [reflexivity|]. change (last (z :: a :: l) d) with (last (a :: l) d). change (last (z :: a :: l) d') with (last (a :: l) d'). apply IH.
Qed.
Lemma uline_zero (P : T -> Prop) y : (forall a b x0 x1, P a -> P b -> eU a b x0 x1 y = 0) -> forall l i b, P b -> Forall P l -> uline i b l y = 0.
Proof. intros Z. induction l as [|b' l IH]; intros i b Pb F; cbn [uline]; [reflexivity|]. inversion F; subst. rewrite Z, IH; auto. Qed.
Lemma rows_bal : forall n k j b buf out, S (length buf) = xs -> PL b -> PR (last buf b) -> (j + n = ys - 1)%nat -> (n = 0%nat -> PT b /\ Forall PT buf) ->
  march_rows box xs ys t sample cell n k j (b :: buf) = Some out -> bal out = uline 0 b buf (gy j).
Proof.
  induction n as [|n IH]; intros k j b buf out LB Pb Pr LJ TOP E; cbn [march_rows] in E.
  - injection E as <-. cbn [bal]. destruct (TOP eq_refl) as [A B]. rewrite (uline_zero PT); auto. replace j with (ys - 1)%nat by lia. exact HT.
  - set (d := sample k (mkV (bl box) (gy (S j)))) in *. destruct (march_row _ _ _ _ _ (S k) 0 b d buf (gy j) (gy (S j))) as [buf' o] eqn:R. destruct (march_rows _ _ _ _ _ _ n _ _ _) as [more|] eqn:M; [|discriminate]. injection E as <-.
    destruct (row_bal _ _ _ _ _ _ _ _ _ R) as [L B]. assert (Pl : PL d) by (apply SL; lia).
    assert (Pr' : PR (last buf' d)).
    { destruct buf as [|b' buf]; [cbn in R; injection R as <- <-; cbn [last]; apply SLR; cbn in LB; lia|]. destruct (row_last (b' :: buf) (S k) 0 b d (gy j) (gy (S j)) ltac:(discriminate)) as [k' E']. rewrite R in E'. cbn [fst] in E'. rewrite E'. replace (0 + length (b' :: buf))%nat with (xs - 1)%nat by lia. apply SR. lia. }
    apply (IH _ _ _ _ _) in M; [|lia|exact Pl|exact Pr'|lia|].
    + rewrite bal_app, M, B. rewrite (HL _ _ _ _ Pb Pl). replace (0 + length buf)%nat with (xs - 1)%nat by lia. rewrite (HR _ _ _ _ Pr Pr'). lia.
    + intros ->. assert (SJ : S j = (ys - 1)%nat) by lia. split; [unfold d; rewrite SJ; apply STL|]. pose proof (row_new buf (S k) 0 b d (gy j) (gy (S j))) as N. rewrite R in N. cbn [fst] in N. eapply Forall_impl; [|exact N]. intros v (k' & i' & Li & ->). rewrite SJ. apply ST. lia.
Qed.
Lemma march_bal out : march_cells box xs ys t sample cell = Some out -> bal out = 0.
Proof.
  unfold march_cells. case_eq (ys - 1)%nat; [intros Y; cbn; intros [= <-]; reflexivity|intros n Y]. unfold first_row. destruct (Nat.eq_dec xs 0) as [X|X].
  { replace (seq 0 xs) with (@nil nat) by (rewrite X; reflexivity). cbn [map march_rows]. discriminate. }
  replace (seq 0 xs) with (0%nat :: seq 1 (xs - 1)) by (replace xs with (S (xs - 1)) at 2 by lia; reflexivity). cbn [map]. intros E. set (b := sample 0%nat _) in *. set (buf := map _ _) in *.
  assert (F : Forall PB buf) by (unfold buf; rewrite Forall_forall; intros v Hv; apply in_map_iff in Hv as (i & <- & Hi); apply in_seq in Hi; apply SB; lia).
  apply rows_bal in E.
  - rewrite E. apply (uline_zero PB); auto; apply SB; lia.
  - unfold buf. rewrite map_length, seq_length. lia.
  - apply SBL.
  - unfold buf. case_eq (xs - 1)%nat; [intros X1; cbn [seq map last]; unfold b; rewrite <- X1 at 2; apply SBR|intros x X1]. rewrite seq_S, map_app. cbn [map]. rewrite last_last. replace (1 + x)%nat with (xs - 1)%nat by lia. apply SBR.
  - lia.
  - lia.
Qed.
End Cells.
Definition soft_h t (a b x0 x1 y : T) : V := mkV (midlerp x0 x1 a b t) y.
Definition soft_v t (a c x y0 y1 : T) : V := mkV x (midlerp y0 y1 a c t).
Definition hard_h (a b x0 x1 y : T) : V := mkV (nlerp x0 x1 nhalf) y.
Definition hard_v (a c x y0 y1 : T) : V := mkV x (nlerp y0 y1 nhalf).
Lemma soft_consistent t : consistent t (soft_h t) (soft_v t) cell_soft.
Proof.
  intros a b c d x0 x1 y0 y1. unfold cell_soft, eU, eW, soft_h, soft_v. destruct (nltb t a), (nltb t b), (nltb t c), (nltb t d); rewrite ?bal_app, ?bal_seg; cbn [one bal]; lia.
Qed.
Lemma hard_consistent t : consistent t hard_h hard_v cell_hard.
Proof.
  intros a b c d x0 x1 y0 y1. unfold cell_hard, eU, eW, hard_h, hard_v. destruct (nltb t a), (nltb t b), (nltb t c), (nltb t d); rewrite ?bal_app, ?bal_segs, ?bal_seg; cbn [one bal]; lia.
Qed.
End Gen.
