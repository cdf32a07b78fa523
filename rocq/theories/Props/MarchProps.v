(** Properties C50, C94, C95: marching squares. *)
From Coq Require Import Reals ZArith List Arith Bool Lia Lra Permutation.
From Flocq Require Import IEEE754.BinarySingleNaN.
From Verif Require Import Num Spec SpecShapes SpecPolyline SpecMarch.
From Verif.Model Require Import Vector BB Polyline March.
From Verif.Proofs Require Import RTac Geom PolylinePf PolylineTransit MarchPf MarchR MarchLoops MarchTop MarchSide MarchComplete.
Import ListNotations.
Local Open Scope nat_scope.

Lemma nan_is (x : F) : is_nan x = true -> x = Fnan.
Proof. destruct x; cbn; intros; try discriminate; reflexivity. Qed.
Lemma F_eq_sym (x y : F) : neqb x y = neqb y x.
Proof.
  change (Feqb x y = Feqb y x). destruct (is_nan x) eqn:X; [apply nan_is in X; subst; destruct (Fnan_cmp y) as (_ & _ & _ & _ & A & B); congruence|].
  destruct (is_nan y) eqn:Y; [apply nan_is in Y; subst; destruct (Fnan_cmp x) as (_ & _ & _ & _ & A & B); congruence|].
  rewrite !Feqb_val; auto. unfold Reqb. destruct (Req_EM_T (Fval x) (Fval y)), (Req_EM_T (Fval y) (Fval x)); congruence.
Qed.
Lemma F_eq_trans (x y z : F) : neqb x y = true -> neqb y z = true -> neqb x z = true.
Proof.
  change (Feqb x y = true -> Feqb y z = true -> Feqb x z = true). destruct (is_nan x) eqn:X; [apply nan_is in X; subst; destruct (Fnan_cmp y) as (_ & _ & _ & _ & A & B); congruence|].
  destruct (is_nan y) eqn:Y; [apply nan_is in Y; subst; destruct (Fnan_cmp x) as (_ & _ & _ & _ & A & B); congruence|].
  destruct (is_nan z) eqn:Z; [apply nan_is in Z; subst; destruct (Fnan_cmp y) as (_ & _ & _ & _ & A & B); congruence|].
  rewrite !Feqb_val; auto. unfold Reqb. destruct (Req_EM_T (Fval x) (Fval y)), (Req_EM_T (Fval y) (Fval z)), (Req_EM_T (Fval x) (Fval z)); congruence.
Qed.

(** how many of the segments begin and end at a point, by Go's == *)
Definition begin_at (q : Vec F) (segments : list (Vec F * Vec F)) : nat := length (filter (fun s => vequal (fst s) q) segments).
Definition end_at (q : Vec F) (segments : list (Vec F * Vec F)) : nat := length (filter (fun s => vequal (snd s) q) segments).

(** ** C50.  In binary64, for every callback (which may answer differently at every call), box, threshold and sample counts: at every point that is not on the outermost grid lines, as many
    segments begin as end. *)
Lemma off_border hp vp (cell : F -> F -> F -> F -> F -> F -> F -> F -> F -> list (Vec F * Vec F)) (box : BB F) xs ys t sample out (q : Vec F) : consistent q t hp vp cell -> (forall a b x0 x1 y, vy (hp a b x0 x1 y) = y) -> (forall a b x y0 y1, vx (vp a b x y0 y1) = x) ->
  Feqb (grid_x box xs 0) (vx q) = false -> Feqb (grid_x box xs (xs - 1)) (vx q) = false -> Feqb (grid_y box ys 0) (vy q) = false -> Feqb (grid_y box ys (ys - 1)) (vy q) = false ->
  march_cells box xs ys t sample cell = Some out -> begin_at q out = end_at q out.
Proof.
  intros C HH VV A B D E M. pose (P := fun _ : F => True).
  assert (Z : bal q out = 0%Z).
  { eapply (march_bal q t hp vp cell C box xs ys sample P P P P); try exact M; try (intros; exact I).
    - intros. unfold eW, vequal. rewrite VV. cbn [neqb numF]. rewrite A. cbn. lia.
    - intros. unfold eW, vequal. rewrite VV. cbn [neqb numF]. rewrite B. cbn. lia.
    - intros. unfold eU, vequal. rewrite HH. cbn [neqb numF]. rewrite D, andb_false_r. cbn. lia.
    - intros. unfold eU, vequal. rewrite HH. cbn [neqb numF]. rewrite E, andb_false_r. cbn. lia. }
  rewrite bal_count in Z. unfold begin_at, end_at. lia.
Qed.
Theorem C50_watertight : forall (box : BB F) xs ys t (sample : nat -> Vec F -> F) out (q : Vec F),
  march_soft box xs ys t sample = Some out \/ march_hard box xs ys t sample = Some out ->
  Feqb (grid_x box xs 0) (vx q) = false -> Feqb (grid_x box xs (xs - 1)) (vx q) = false -> Feqb (grid_y box ys 0) (vy q) = false -> Feqb (grid_y box ys (ys - 1)) (vy q) = false ->
  begin_at q out = end_at q out.
Proof.
  intros box xs ys t sample out q [M|M] A B C D.
  - eapply off_border; try exact M; eauto; [apply soft_consistent; [exact F_eq_sym|exact F_eq_trans]|reflexivity|reflexivity].
  - eapply off_border; try exact M; eauto; [apply hard_consistent; [exact F_eq_sym|exact F_eq_trans]|reflexivity|reflexivity].
Qed.
(** If moreover no sample on the border is inside, that is so at every point. *)
Lemma border_out hp vp (cell : F -> F -> F -> F -> F -> F -> F -> F -> F -> list (Vec F * Vec F)) (box : BB F) xs ys t sample out (q : Vec F) : consistent q t hp vp cell ->
  (forall k p, vx p = bl box \/ vx p = grid_x box xs 0 \/ vx p = grid_x box xs (xs - 1) \/ vy p = bb box \/ vy p = grid_y box ys (ys - 1) -> Fltb t (sample k p) = false) ->
  march_cells box xs ys t sample cell = Some out -> begin_at q out = end_at q out.
Proof.
  intros C B M. pose (P := fun v : F => Fltb t v = false).
  assert (Z : bal q out = 0%Z).
  { eapply (march_bal q t hp vp cell C box xs ys sample P P P P); try exact M; try (intros; apply B; cbn [vx vy]; now auto 6); try (intros; apply B; cbn [vx vy]; auto 6; fail).
    - intros ? ? ? ? X Y. unfold eW. cbn [nltb numF]. rewrite X, Y. cbn. lia.
    - intros ? ? ? ? X Y. unfold eW. cbn [nltb numF]. rewrite X, Y. cbn. lia.
    - intros ? ? ? ? X Y. unfold eU. cbn [nltb numF]. rewrite X, Y. cbn. lia.
    - intros ? ? ? ? X Y. unfold eU. cbn [nltb numF]. rewrite X, Y. cbn. lia. }
  rewrite bal_count in Z. unfold begin_at, end_at. lia.
Qed.
Theorem C50_border_outside : forall (box : BB F) xs ys t (sample : nat -> Vec F -> F) out (q : Vec F),
  march_soft box xs ys t sample = Some out \/ march_hard box xs ys t sample = Some out ->
  (forall k p, vx p = bl box \/ vx p = grid_x box xs 0 \/ vx p = grid_x box xs (xs - 1) \/ vy p = bb box \/ vy p = grid_y box ys (ys - 1) -> Fltb t (sample k p) = false) ->
  begin_at q out = end_at q out.
Proof.
  intros box xs ys t sample out q [M|M] B.
  - eapply border_out; try exact M; auto. apply soft_consistent; [exact F_eq_sym|exact F_eq_trans].
  - eapply border_out; try exact M; auto. apply hard_consistent; [exact F_eq_sym|exact F_eq_trans].
Qed.
(** It returns, for every box and callback, except with no column and two or more rows. *)
Lemma row_len {T} `{Num T} (box : BB T) xs t sample cell : forall buf k i b d y0 y1, length (fst (march_row box xs t sample cell k i b d buf y0 y1)) = length buf.
Proof. induction buf; intros; cbn [march_row]; [reflexivity|]. destruct (march_row _ _ _ _ _ (S k) (S i) a _ buf y0 y1) as [buf' o] eqn:R. cbn [fst length]. f_equal. specialize (IHbuf (S k) (S i) a (sample k (mkV (grid_x box xs (S i)) y1)) y0 y1). rewrite R in IHbuf. exact IHbuf. Qed.
Lemma rows_some {T} `{Num T} (box : BB T) xs ys t sample cell : forall n k j buf, buf <> [] -> march_rows box xs ys t sample cell n k j buf <> None.
Proof.
  induction n; intros k j buf NE; cbn [march_rows]; [discriminate|]. destruct buf as [|b buf]; [contradiction|]. destruct (march_row _ _ _ _ _ _ 0 b _ buf _ _) as [buf' o] eqn:R.
  specialize (IHn (k + xs) (S j) (sample k (mkV (bl box) (grid_y box ys (S j))) :: buf') ltac:(discriminate)). now destruct (march_rows _ _ _ _ _ _ n _ _ _).
Qed.
Theorem C50_returns : forall (box : BB F) xs ys t (sample : nat -> Vec F -> F), 0 < xs \/ ys <= 1 -> (exists out, march_soft box xs ys t sample = Some out) /\ (exists out, march_hard box xs ys t sample = Some out).
Proof.
  intros box xs ys t sample C. assert (G : forall cell, exists out, march_cells box xs ys t sample cell = Some out).
  { intros cell. unfold march_cells. destruct C as [C|C].
    - assert (NE : first_row box xs sample <> []) by (unfold first_row; destruct xs; [lia|discriminate]). pose proof (rows_some box xs ys t sample cell (ys - 1) xs 0 _ NE). destruct (march_rows _ _ _ _ _ _ _ _ _ _); [eauto|contradiction].
    - replace (ys - 1) with 0 by lia. cbn. eauto. }
  split; apply G.
Qed.
(** 3 by 3 samples, the middle one inside; the callback does not look at the point. *)
Definition f3 : nat -> Vec F -> F := fun k _ => F_of_Z (if Nat.eqb k 4 then 1 else 0).
Definition box2 : BB F := mkBB (F_of_Z 0) (F_of_Z 0) (F_of_Z 2) (F_of_Z 2).
Example C50_nonvacuous : let half := Fdiv (F_of_Z 1) (F_of_Z 2) in let q := mkV (F_of_Z 1) half in
  match march_soft box2 3 3 half f3 with Some out => (length out =? 4) && (begin_at q out =? 1) | None => false end
  && match march_hard box2 3 3 half f3 with Some out => (length out =? 8) && (begin_at q out =? 1) | None => false end
  && negb (Feqb (grid_x box2 3 0) (vx q)) && negb (Feqb (grid_x box2 3 2) (vx q)) && negb (Feqb (grid_y box2 3 0) (vy q)) && negb (Feqb (grid_y box2 3 2) (vy q)) = true.
Proof. vm_compute. reflexivity. Qed.
Print Assumptions C50_watertight.
Print Assumptions C50_border_outside.

Local Open Scope R_scope.
(** ** C94.  Over the reals, for a callback that is a function of the point.  MarchSoft: every end of every segment lies between two neighbouring grid nodes, one inside and one not, where linear
    interpolation of the samples gives the threshold. *)
Theorem C94_soft_crossings : forall (box : BB R) xs ys t f out s, march_soft box xs ys t (fun _ => f) = Some out -> In s out -> crossing box xs ys f t (fst s) /\ crossing box xs ys f t (snd s).
Proof. exact soft_crossings. Qed.
(** MarchHard: every end is half way between such neighbours or in the middle of a cell. *)
Theorem C94_hard_ends : forall (box : BB R) xs ys t f out s, bl box < br box -> bb box < bt box -> march_hard box xs ys t (fun _ => f) = Some out -> In s out ->
  forall p, p = fst s \/ p = snd s -> (exists u w, neighbours box xs ys u w /\ f w <= t < f u /\ p = seg_point u w (1 / 2)) \/
    (exists i j, (S i < xs)%nat /\ (S j < ys)%nat /\ p = seg_point (node box xs ys i j) (node box xs ys (S i) (S j)) (1 / 2)).
Proof.
  intros box xs ys t f out s HX HY M I p [-> | ->].
  - assert (G : (2 <= xs)%nat /\ (2 <= ys)%nat) by (pose proof (march_in _ _ _ _ _ _ _ _ M I) as (i & j & A & B & _); lia). destruct G. now destruct (hard_sided box xs ys t f HX HY out s H H0 M I) as (_ & A & _).
  - assert (G : (2 <= xs)%nat /\ (2 <= ys)%nat) by (pose proof (march_in _ _ _ _ _ _ _ _ M I) as (i & j & A & B & _); lia). destruct G. now destruct (hard_sided box xs ys t f HX HY out s H H0 M I) as (_ & _ & A).
Qed.
(** Every segment passes between an inside node on its left and an outside node on its right. *)
Theorem C94_inside_left : forall (box : BB R) xs ys t f out s, bl box < br box -> bb box < bt box -> march_soft box xs ys t (fun _ => f) = Some out \/ march_hard box xs ys t (fun _ => f) = Some out -> In s out ->
  exists u w, neighbours box xs ys u w /\ f w <= t < f u /\ 0 <= turn (fst s) (snd s) u /\ turn (fst s) (snd s) w <= 0.
Proof.
  intros box xs ys t f out s HX HY M I.
  assert (G : (2 <= xs)%nat /\ (2 <= ys)%nat) by (destruct M as [M|M]; pose proof (march_in _ _ _ _ _ _ _ _ M I) as (i & j & A & B & _); lia). destruct G, M as [M|M].
  - exact (soft_sided box xs ys t f HX HY out s H H0 M I).
  - now destruct (hard_sided box xs ys t f HX HY out s H H0 M I) as (A & _).
Qed.

(** Nothing is missing: between any two neighbouring nodes, one above and one below the threshold, there is an end of a segment, where the interpolation says (MarchSoft) or half way (MarchHard). *)
Theorem C94_soft_complete : forall (box : BB R) xs ys t f out u w, bl box < br box -> bb box < bt box -> (2 <= xs)%nat -> (2 <= ys)%nat -> march_soft box xs ys t (fun _ => f) = Some out -> neighbours box xs ys u w -> f w < t < f u ->
  exists s, In s out /\ (fst s = seg_point u w ((t - f u) / (f w - f u)) \/ snd s = seg_point u w ((t - f u) / (f w - f u))).
Proof. intros box xs ys t f out u w HX HY X Y M N C. exact (soft_complete box xs ys t f HX HY X Y out u w M N C). Qed.
Theorem C94_hard_complete : forall (box : BB R) xs ys t f out u w, bl box < br box -> bb box < bt box -> (2 <= xs)%nat -> (2 <= ys)%nat -> march_hard box xs ys t (fun _ => f) = Some out -> neighbours box xs ys u w -> f w <= t < f u ->
  exists s, In s out /\ (fst s = seg_point u w (1 / 2) \/ snd s = seg_point u w (1 / 2)).
Proof. intros box xs ys t f out u w HX HY X Y M N C. exact (hard_complete box xs ys t f HX HY X Y out u w M N C). Qed.

(** ** C95.  MarchSoft and MarchHard with PolyLineCollectSegment: if no node on the border of the grid is inside, every polyline of the result is closed.  (MarchSoft: if no sample is exactly the
    threshold.) *)
Lemma few (box : BB R) xs ys t f cell out : (xs < 2 \/ ys < 2)%nat -> march_cells box xs ys t (fun _ => f) cell = Some out -> out = [].
Proof. intros C M. destruct out as [|s out]; [reflexivity|]. destruct (march_in _ _ _ _ _ _ _ s M ltac:(now left)) as (i & j & A & B & _). lia. Qed.
Theorem C95_soft_closed : forall (box : BB R) xs ys t f out, bl box < br box -> bb box < bt box -> (forall v, border box xs ys v -> f v <= t) -> (forall i j, (i < xs)%nat -> (j < ys)%nat -> f (node box xs ys i j) <> t) ->
  march_soft box xs ys t (fun _ => f) = Some out -> Forall loops (collect_all out).
Proof.
  intros box xs ys t f out HX HY B N M. destruct (le_lt_dec 2 xs) as [X|X]; [|rewrite (few _ _ _ _ _ _ _ (or_introl X) M); constructor]. destruct (le_lt_dec 2 ys) as [Y|Y]; [|rewrite (few _ _ _ _ _ _ _ (or_intror Y) M); constructor].
  apply (soft_loops box xs ys t f); auto.
  - intros i j A D. rewrite nd_node. auto.
  - apply (border_perm box xs ys t f (soft_h t) (soft_v t) cell_soft); auto. intros q. apply soft_consistent; [exact R_eq_sym|exact R_eq_trans].
Qed.
Theorem C95_hard_closed : forall (box : BB R) xs ys t f out, bl box < br box -> bb box < bt box -> (forall v, border box xs ys v -> f v <= t) ->
  march_hard box xs ys t (fun _ => f) = Some out -> Forall loops (collect_all out).
Proof.
  intros box xs ys t f out HX HY B M. destruct (le_lt_dec 2 xs) as [X|X]; [|rewrite (few _ _ _ _ _ _ _ (or_introl X) M); constructor]. destruct (le_lt_dec 2 ys) as [Y|Y]; [|rewrite (few _ _ _ _ _ _ _ (or_intror Y) M); constructor].
  apply (hard_loops box xs ys t f); auto.
  apply (border_perm box xs ys t f hard_h hard_v cell_hard); auto. intros q. apply hard_consistent; [exact R_eq_sym|exact R_eq_trans].
Qed.
(** A diamond on 3 by 3 samples. *)
Definition boxR : BB R := mkBB 0 0 2 2.
Definition fR (p : RV) : R := 1 - Rabs (vx p - 1) - Rabs (vy p - 1).
Lemma node_at i j : node boxR 3 3 i j = mkV (INR i) (INR j).
Proof. unfold node, boxR. cbn [bl br bb bt]. replace (INR 3) with 3 by (cbn; lra). f_equal; lra. Qed.
Lemma few3 (P : nat -> Prop) : P 0%nat -> P 1%nat -> P 2%nat -> forall i, (i < 3)%nat -> P i.
Proof. intros A B C [|[|[|i]]] L; auto; lia. Qed.
Example C95_nonvacuous : (forall v, border boxR 3 3 v -> fR v <= 1 / 2) /\ (forall i j, (i < 3)%nat -> (j < 3)%nat -> fR (node boxR 3 3 i j) <> 1 / 2) /\
  (exists out, march_soft boxR 3 3 (1 / 2) (fun _ => fR) = Some out /\ out <> []) /\ (exists out, march_hard boxR 3 3 (1 / 2) (fun _ => fR) = Some out /\ out <> []).
Proof.
  assert (FR : forall i j, (i < 3)%nat -> (j < 3)%nat -> (fR (node boxR 3 3 i j) = 1 /\ i = 1%nat /\ j = 1%nat) \/ (fR (node boxR 3 3 i j) <= 0 /\ (i = 0 \/ j = 0 \/ S i = 3 \/ S j = 3)%nat)).
  { intros i j Hi Hj. rewrite node_at. unfold fR. cbn [vx vy]. revert i Hi. apply few3; revert j Hj; apply few3; cbn [INR]; ((left; split; [|now auto]) || (right; split; [|now auto 6])); unfold Rabs; repeat destruct Rcase_abs; lra. }
  assert (NE : forall cell, (forall a b c d x0 x1 y0 y1, a <= 1 / 2 -> b <= 1 / 2 -> c <= 1 / 2 -> 1 / 2 < d -> x0 < x1 -> y0 < y1 -> d = 1 -> b = 0 -> c = 0 -> cell (1 / 2) a b c d x0 x1 y0 y1 <> []) ->
    exists out, march_cells boxR 3 3 (1 / 2) (fun _ => fR) cell = Some out /\ out <> []).
  { intros cell HC. pose proof (rows_some boxR 3 3 (1 / 2) (fun _ => fR) cell 2 3 0 (first_row boxR 3 (fun _ => fR)) ltac:(discriminate)) as NN. unfold march_cells. change (3 - 1)%nat with 2%nat. destruct (march_rows _ _ _ _ _ _ _ _ _ _) as [out|] eqn:E; [|contradiction]. exists out. split; [reflexivity|].
    rewrite (march_pure _ _ _ _ _ _ _ E). change (seq 0 (3 - 1)) with [0%nat; 1%nat]. cbn [flat_map]. intros Z. apply app_eq_nil in Z as [Z _]. apply app_eq_nil in Z as [Z _]. revert Z. unfold cell_at. rewrite !nd_node, !gx_node, !gy_node, !node_at. cbn [INR bl br bb bt boxR].
    assert (A0 : fR (mkV 0 0) = -1) by (unfold fR; cbn [vx vy]; unfold Rabs; repeat destruct Rcase_abs; lra). assert (A1 : fR (mkV 1 0) = 0) by (unfold fR; cbn [vx vy]; unfold Rabs; repeat destruct Rcase_abs; lra).
    assert (A2 : fR (mkV 0 1) = 0) by (unfold fR; cbn [vx vy]; unfold Rabs; repeat destruct Rcase_abs; lra). assert (A3 : fR (mkV 1 1) = 1) by (unfold fR; cbn [vx vy]; unfold Rabs; repeat destruct Rcase_abs; lra).
    rewrite A0, A1, A2, A3. apply HC; lra. }
  split; [|split; [|split]].
  - intros v (i & j & Hi & Hj & C & ->). destruct (FR i j Hi Hj) as [(_ & -> & ->)|[A _]]; [lia|lra].
  - intros i j Hi Hj. destruct (FR i j Hi Hj) as [[A _]|[A _]]; lra.
  - apply NE. intros a b c d x0 x1 y0 y1 A B C D X Y Ed Eb Ec. unfold cell_soft. cbn [nltb numR]. rewrite (proj2 (Rltb_true _ _) D), (proj2 (Rltb_false _ _) A), (proj2 (Rltb_false _ _) B), (proj2 (Rltb_false _ _) C).
    rewrite seg_cons; [discriminate|]. intros Q. apply (f_equal vx) in Q. cbn [vx] in Q. rewrite mid_eq in Q. subst. replace ((1 / 2 - 0) / (1 - 0)) with (1 / 2) in Q by lra. lra.
  - apply NE. intros a b c d x0 x1 y0 y1 A B C D X Y Ed Eb Ec. unfold cell_hard. cbn [nltb numR]. rewrite (proj2 (Rltb_true _ _) D), (proj2 (Rltb_false _ _) A), (proj2 (Rltb_false _ _) B), (proj2 (Rltb_false _ _) C).
    unfold segs. intros Z. apply app_eq_nil in Z as [Z _]. revert Z. rewrite seg_cons; [discriminate|]. intros Q. apply (f_equal vy) in Q. cbn [vy] in Q. pose proof (half_open y0 y1 Y). lra.
Qed.
Print Assumptions C94_soft_crossings.
Print Assumptions C94_inside_left.
Print Assumptions C95_soft_closed.
Print Assumptions C95_hard_closed.
