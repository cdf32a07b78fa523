(** Support points and the answer of GJK/EPA (reals). *)
From Coq Require Import Reals ZArith NArith Bool List Lra Lia.
From Verif Require Import Num Spec SpecShapes SpecCollide.
From Verif.Model Require Import Vector BB Transform Shapes Collision.
From Verif.Proofs Require Import RTac Geom ShapePf.
Import ListNotations.
Local Open Scope R_scope.

Lemma hull_le vs n k x : (forall v, In v vs -> inner v n <= k) -> in_hull vs x -> inner x n <= k.
Proof.
  intros Hv Hx. induction Hx as [v Hi|p q x _ IHp _ IHq (s & Hs & ->)]; auto.
  unfold inner, seg_point in *. cbn [vx vy].
  replace ((vx p + s * (vx q - vx p)) * vx n + (vy p + s * (vy q - vy p)) * vy n) with ((1 - s) * (vx p * vx n + vy p * vy n) + s * (vx q * vx n + vy q * vy n)) by ring.
  assert (0 <= (1 - s) * (k - (vx p * vx n + vy p * vy n))) by (apply Rmult_le_pos; lra).
  assert (0 <= s * (k - (vx q * vx n + vy q * vy n))) by (apply Rmult_le_pos; lra). lra.
Qed.

(** ** support points *)
Definition psi_step (n : RV) (st : R * nat * nat) (q : Plane R) : R * nat * nat := let '(mx, ix, i) := st in let d := vdot (pl_v0 q) n in if nltb mx d then (d, i, S i) else (mx, ix, S i).
Lemma psi_inv n : forall l pre mx ix,
  (mx = - MaxFloat64 /\ ix = O /\ (forall q, In q pre -> inner (pl_v0 q) n <= - MaxFloat64) \/ (ix < length pre)%nat /\ (forall d, mx = inner (pl_v0 (nth ix pre d)) n) /\ forall q, In q pre -> inner (pl_v0 q) n <= mx) ->
  let r := fold_left (psi_step n) l (mx, ix, length pre) in let mx := fst (fst r) in let ix := snd (fst r) in let all := pre ++ l in
  (mx = - MaxFloat64 /\ ix = O /\ (forall q, In q all -> inner (pl_v0 q) n <= - MaxFloat64) \/ (ix < length all)%nat /\ (forall d, mx = inner (pl_v0 (nth ix all d)) n) /\ forall q, In q all -> inner (pl_v0 q) n <= mx).
Proof.
  induction l as [|x l IH]; intros pre mx ix Hp; cbn [fold_left]; [cbn; rewrite app_nil_r; exact Hp|].
  assert (Ln : S (length pre) = length (pre ++ [x])) by (rewrite app_length; cbn; lia).
  assert (E1 : psi_step n (mx, ix, length pre) x = if Rltb mx (inner (pl_v0 x) n) then (inner (pl_v0 x) n, length pre, length (pre ++ [x])) else (mx, ix, length (pre ++ [x]))) by (rewrite <- Ln; reflexivity).
  rewrite E1. clear E1. destruct (Rltb_spec mx (inner (pl_v0 x) n)) as [Hl|Hl].
  - specialize (IH (pre ++ [x]) (inner (pl_v0 x) n) (length pre)). rewrite <- app_assoc in IH. apply IH. right.
    split; [rewrite <- Ln; lia|]. split; [intros d; rewrite nth_middle; reflexivity|].
    intros q [Hq|[->|[]]]%in_app_or; [|lra]. destruct Hp as [(E & _ & Hp)|(_ & _ & Hp)]; specialize (Hp q Hq); lra.
  - specialize (IH (pre ++ [x]) mx ix). rewrite <- app_assoc in IH. apply IH. destruct Hp as [(E & E2 & Hp)|(Hi & E & Hp)].
    + left. split; auto. split; auto. intros q [Hq|[->|[]]]%in_app_or; auto. lra.
    + right. split; [rewrite <- Ln; lia|]. split; [intros d; rewrite app_nth1 by lia; apply E|]. intros q [Hq|[->|[]]]%in_app_or; auto. lra.
Qed.
Lemma psi_spec (ps : list (Plane R)) n : ps <> [] -> (poly_support_index ps n < length ps)%nat /\
  ((forall q, In q ps -> - MaxFloat64 < inner (pl_v0 q) n) -> forall q, In q ps -> inner (pl_v0 q) n <= inner (pl_v0 (plane_at ps (poly_support_index ps n))) n).
Proof.
  intros Hn. pose proof (psi_inv n ps [] (- MaxFloat64) O) as Hi. cbn [length app] in Hi. cbv zeta in Hi.
  unfold poly_support_index. change (fun (st : R * nat * nat) q => _) with (psi_step n).
  change (- ninf)%num with (- MaxFloat64) in *.
  destruct (fold_left (psi_step n) ps (- MaxFloat64, 0%nat, 0%nat)) as [[mx ix] i]. cbn [fst snd] in *.
  destruct Hi as [(E & E2 & Hp)|(Hi & E & Hp)]; [left; repeat split; auto; intros ? []| |].
  - split; [subst; destruct ps; [congruence|cbn; lia]|]. intros Hb q Hq. specialize (Hp q Hq). specialize (Hb q Hq). lra.
  - split; [exact Hi|]. intros _ q Hq. unfold plane_at. rewrite <- E. auto.
Qed.
Lemma shape_point_in s i : corners s <> [] -> In (sp_p (shape_point s i)) (corners s).
Proof.
  destruct s as [c r|g|ps r]; cbn [corners shape_point].
  - intros _. now left.
  - intros _. destruct (i =? 0)%N; cbn; auto.
  - intros Hn. cbn [sp_p]. unfold plane_at. apply in_map, nth_In. destruct (N.ltb_spec i (N.of_nat (length ps))); [lia|]. destruct ps; [cbn in Hn; congruence|cbn; lia].
Qed.
Lemma support_in s n : corners s <> [] -> In (sp_p (support_point s n)) (corners s).
Proof.
  destruct s as [c r|g|ps r]; cbn [corners support_point].
  - intros _. now left.
  - intros _. destruct (nltb _ _); cbn; auto.
  - intros Hn. cbn [sp_p]. unfold plane_at. apply in_map, nth_In. apply psi_spec. intros ->. apply Hn. reflexivity.
Qed.
Lemma support_max s n : corners s <> [] -> (forall v, In v (corners s) -> - MaxFloat64 < inner v n) -> forall v, In v (corners s) -> inner v n <= inner (sp_p (support_point s n)) n.
Proof.
  destruct s as [c r|g|ps r]; cbn [corners support_point]; intros Hn Hb v Hv.
  - destruct Hv as [->|[]]. cbn. lra.
  - vdi. cbn [nltb numR]. destruct (Rltb_spec (inner (sg_tb g) n) (inner (sg_ta g) n)), Hv as [<-|[<-|[]]]; cbn [sp_p]; lra.
  - apply in_map_iff in Hv as (q & <- & Hq). cbn [sp_p]. apply psi_spec; auto; [intros ->; apply Hn; reflexivity|]. intros q' Hq'. apply Hb. now apply in_map.
Qed.

(** ** the indices stand for the points *)
Definition pt (s : Shape R) (i : N) : RV := sp_p (shape_point s i).
Definition named (s : Shape R) (p : SupportPt R) : Prop := sp_p p = pt s (sp_i p) /\ N.land (sp_i p) 255 = sp_i p.
Lemma land_small i : (i < 256)%N -> N.land i 255 = i.
Proof. intros Hi. change 255%N with (N.ones 8). rewrite N.land_ones. now apply N.mod_small. Qed.
Lemma land_lt i : (N.land i 255 < 256)%N.
Proof. change 255%N with (N.ones 8). rewrite N.land_ones. now apply N.mod_lt. Qed.
Lemma support_named s n : corners s <> [] -> (length (corners s) <= 256)%nat -> named s (support_point s n).
Proof.
  destruct s as [c r|g|ps r]; unfold named, pt; cbn [corners support_point]; intros Hn Hl.
  - split; reflexivity.
  - destruct (nltb _ _); split; reflexivity.
  - cbn [sp_p sp_i]. rewrite map_length in Hl. assert (Hi : (poly_support_index ps n < length ps)%nat) by (apply psi_spec; intros ->; apply Hn; reflexivity).
    split; [|apply land_small; lia]. cbn [shape_point sp_p]. rewrite (proj2 (N.ltb_lt _ _)) by lia. rewrite Nnat.Nat2N.id. reflexivity.
Qed.
Lemma shape_point_named s i : corners s <> [] -> (length (corners s) <= 256)%nat -> (i < 256)%N -> named s (shape_point s i).
Proof.
  destruct s as [c r|g|ps r]; unfold named, pt; cbn [corners shape_point]; intros Hn Hl Hi.
  - split; reflexivity.
  - destruct (i =? 0)%N eqn:E; cbn [sp_p sp_i]; rewrite E; (split; [reflexivity|now apply land_small]).
  - rewrite map_length in Hl. cbn [sp_p sp_i]. assert (0 < length ps)%nat by (destruct ps; [cbn in Hn; congruence|cbn; lia]).
    destruct (N.ltb_spec i (N.of_nat (length ps))).
    + rewrite Nnat.N2Nat.id. rewrite (proj2 (N.ltb_lt _ _)) by lia. split; [reflexivity|now apply land_small].
    + cbn. split; [|reflexivity]. destruct (N.ltb_spec 0 (N.of_nat (length ps))); [reflexivity|lia].
Qed.
