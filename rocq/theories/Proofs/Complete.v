(** ContactPoints finds a contact of overlapping polygons with well-formed corners (reals). *)
From Coq Require Import Reals ZArith NArith Bool List Lra Lia Arith.
From Verif Require Import Num Spec SpecShapes SpecCollide SpecDepth.
From Verif.Model Require Import Vector BB Transform Shapes Collision.
From Verif.Proofs Require Import RTac Geom ShapePf ShapePf2 GjkPf GjkPf2 GjkPf3 GjkMin.
Import ListNotations.
Local Open Scope R_scope.

(** ** the contact points of two edges, as numbers *)
Definition c01 (x : R) : R := Rmax 0 (Rmin x 1).
Lemma c01_cases x : (x <= 0 /\ c01 x = 0) \/ (0 <= x <= 1 /\ c01 x = x) \/ (1 <= x /\ c01 x = 1).
Proof. unfold c01, Rmax, Rmin. destruct (Rle_dec x 1); destruct (Rle_dec 0 _); lra. Qed.
Lemma div_le a b c : 0 < b -> a <= c * b -> a / b <= c.
Proof. intros Hb H. apply Rmult_le_reg_r with b; [exact Hb|]. unfold Rdiv. rewrite Rmult_assoc, Rinv_l by lra. lra. Qed.
Lemma div_ge a b c : 0 < b -> c * b <= a -> c <= a / b.
Proof. intros Hb H. apply Rmult_le_reg_r with b; [exact Hb|]. unfold Rdiv. rewrite Rmult_assoc, Rinv_l by lra. lra. Qed.
Lemma div_mul a b : 0 < b -> a / b * b = a.
Proof. intros Hb. unfold Rdiv. rewrite Rmult_assoc, Rinv_l by lra. ring. Qed.
(** two clamped quotients of the same number *)
Lemma c01_near e L L' u : 0 < e -> 0 < L -> 0 < L' -> L' <= L <= L' + e -> 0 <= c01 (u / L') - c01 (u / L) <= e / L.
Proof.
  intros He HL HL' HLL. assert (E0 : 0 <= e / L) by (apply div_ge; lra).
  pose proof (div_mul u L HL) as M. pose proof (div_mul u L' HL') as M'. set (x := u / L) in *. set (y := u / L') in *.
  destruct (Rle_dec u 0) as [Hu|Hu].
  - assert (x <= 0) by (apply div_le; lra). assert (y <= 0) by (apply div_le; lra).
    destruct (c01_cases x) as [[? ->]|[[? ->]|[? ->]]], (c01_cases y) as [[? ->]|[[? ->]|[? ->]]]; lra.
  - assert (0 < x) by (apply Rdiv_lt_0_compat; lra). assert (0 < y) by (apply Rdiv_lt_0_compat; lra).
    assert (XY : x <= y). { apply div_le; [exact HL|]. rewrite <- M' at 1. apply Rmult_le_compat_l; lra. }
    assert (K : forall z, 0 <= z <= 1 -> z <= y -> z <= x + e / L).
    { intros z Hz Hzy. assert (H1 : z * L' <= u). { rewrite <- M'. apply Rmult_le_compat_r; lra. }
      assert (H2 : z * e <= e) by (assert (0 <= (1 - z) * e) by (apply Rmult_le_pos; lra); lra).
      assert (H3 : z * L <= z * (L' + e)) by (apply Rmult_le_compat_l; lra).
      replace (x + e / L) with ((u + e) / L) by (unfold x; field; lra). apply div_ge; lra. }
    destruct (c01_cases x) as [[? ->]|[[? ->]|[? ->]]], (c01_cases y) as [[? ->]|[[? ->]|[? ->]]]; try lra.
    + specialize (K y). lra.
    + specialize (K 1). lra.
Qed.
Section Gap.
(** first edge: tangential coordinates from [A1] down to [B1], heights [h1 + t * k1]; second edge: from [A2] up to [B2], heights [h2 + t * k2] *)
Variables e A1 B1 A2 B2 h1 k1 h2 k2 m s1 s2 d : R.
Hypothesis He : 0 < e.
Hypothesis HL1 : e < A1 - B1.
Hypothesis HL2 : 0 < B2 - A2.
Hypothesis S1 : 0 <= s1 <= 1.
Hypothesis S2 : 0 <= s2 <= 1.
Hypothesis ES : A1 - s1 * (A1 - B1) = A2 + s2 * (B2 - A2).
Hypothesis ED : (h2 + s2 * k2) - (h1 + s1 * k1) = d.
Hypothesis K1 : Rabs k1 * m <= A1 - B1.
Hypothesis K2 : Rabs k2 * m <= B2 - A2.
Hypothesis Hm : 0 < m.
Hypothesis Hd : d * m + 2 * e <= 0.
Let L1 := A1 - B1.
Let L2 := B2 - A2.
Lemma gap_one t t' q q' : Rabs (t' - t) <= e / L1 -> Rabs (q' - q) <= e / L2 -> (h2 + q * k2) - (h1 + t * k1) <= d -> (h2 + q' * k2) - (h1 + t' * k1) <= 0.
Proof.
  intros Ht Hq Hg. assert (P1 : 0 < L1) by (unfold L1; lra). assert (P2 : 0 < L2) by exact HL2.
  assert (B : forall k x L, 0 < L -> Rabs k * m <= L -> Rabs x <= e / L -> Rabs (k * x) * m <= e).
  { intros k x L HL Hk Hx. rewrite Rabs_mult. replace (Rabs k * Rabs x * m) with ((Rabs k * m) * Rabs x) by ring.
    apply Rle_trans with (L * (e / L)); [|right; field; lra]. apply Rmult_le_compat; auto; [|apply Rabs_pos]. apply Rmult_le_pos; [apply Rabs_pos|lra]. }
  pose proof (B k1 (t' - t) L1 P1 K1 Ht) as X1. pose proof (B k2 (q' - q) L2 P2 K2 Hq) as X2.
  assert (Y : forall z, Rabs z * m <= e -> - e <= z * m <= e).
  { intros z Hz. apply abs_bounds. rewrite Rabs_mult, (Rabs_pos_eq m) by lra. exact Hz. }
  apply Y in X1. apply Y in X2. apply Rmult_le_reg_r with m; [exact Hm|].
  assert (Hg' : ((h2 + q * k2) - (h1 + t * k1)) * m <= d * m) by (apply Rmult_le_compat_r; lra). lra.
Qed.
Lemma gap_two :
  (h2 + c01 ((A1 - A2) * (1 / (B2 - A2 + e))) * k2) - (h1 + c01 ((B2 - A1) * (1 / (B1 - A1 + e))) * k1) <= 0 \/
  (h2 + c01 ((B1 - A2) * (1 / (B2 - A2 + e))) * k2) - (h1 + c01 ((A2 - A1) * (1 / (B1 - A1 + e))) * k1) <= 0.
Proof.
  assert (P1 : 0 < L1) by (unfold L1; lra). assert (P2 : 0 < L2) by exact HL2.
  assert (X : forall u, Rabs (c01 (u * (1 / (B1 - A1 + e))) - c01 (- u / L1)) <= e / L1).
  { intros u. replace (u * (1 / (B1 - A1 + e))) with (- u / (L1 - e)) by (unfold L1; field; lra).
    pose proof (c01_near e L1 (L1 - e) (- u) He P1 ltac:(unfold L1; lra) ltac:(lra)) as N. apply abs_bounds. lra. }
  assert (Y : forall u, Rabs (c01 (u * (1 / (B2 - A2 + e))) - c01 (u / L2)) <= e / L2).
  { intros u. replace (u * (1 / (B2 - A2 + e))) with (u / (L2 + e)) by (unfold L2; field; lra).
    pose proof (c01_near e (L2 + e) L2 u He ltac:(lra) P2 ltac:(lra)) as N.
    assert (e / (L2 + e) <= e / L2). { apply Rmult_le_compat_l; [lra|]. apply Rinv_le_contravar; lra. } apply abs_bounds. lra. }
  assert (E1 : forall u, A1 - c01 (u / L1) * L1 = Rmax B1 (Rmin A1 (A1 - u))).
  { intros u. pose proof (div_mul u L1 P1) as M. destruct (c01_cases (u / L1)) as [[H ->]|[[H ->]|[H ->]]].
    - assert (u / L1 * L1 <= 0 * L1) by (apply Rmult_le_compat_r; lra). rewrite Rmin_left, Rmax_right by (unfold L1 in *; lra). ring.
    - assert (0 * L1 <= u / L1 * L1 <= 1 * L1) by (split; apply Rmult_le_compat_r; lra). rewrite Rmin_right, Rmax_right by (unfold L1 in *; lra). lra.
    - assert (1 * L1 <= u / L1 * L1) by (apply Rmult_le_compat_r; lra). rewrite Rmin_right by lra. rewrite Rmax_left by (unfold L1 in *; lra). unfold L1. ring. }
  assert (E2 : forall u, A2 + c01 (u / L2) * L2 = Rmin B2 (Rmax A2 (A2 + u))).
  { intros u. pose proof (div_mul u L2 P2) as M. destruct (c01_cases (u / L2)) as [[H ->]|[[H ->]|[H ->]]].
    - assert (u / L2 * L2 <= 0 * L2) by (apply Rmult_le_compat_r; lra). rewrite Rmax_left, Rmin_right by (unfold L2 in *; lra). ring.
    - assert (0 * L2 <= u / L2 * L2 <= 1 * L2) by (split; apply Rmult_le_compat_r; lra). rewrite Rmax_right, Rmin_right by (unfold L2 in *; lra). lra.
    - assert (1 * L2 <= u / L2 * L2) by (apply Rmult_le_compat_r; lra). rewrite Rmax_right by lra. rewrite Rmin_left by (unfold L2 in *; lra). unfold L2. ring. }
  assert (R1 : 0 <= s1 * L1 <= L1) by (split; [apply Rmult_le_pos; lra|assert (0 <= (1 - s1) * L1) by (apply Rmult_le_pos; lra); lra]).
  assert (R2 : 0 <= s2 * L2 <= L2) by (split; [apply Rmult_le_pos; lra|assert (0 <= (1 - s2) * L2) by (apply Rmult_le_pos; lra); lra]).
  fold L1 L2 in ES.
  (* the coordinate of the first contact is at least that of the nearest points, of the second at most *)
  assert (F1 : A1 - c01 ((A1 - B2) / L1) * L1 = A2 + c01 ((A1 - A2) / L2) * L2 /\ A2 + s2 * L2 <= A2 + c01 ((A1 - A2) / L2) * L2).
  { rewrite E1, E2. replace (A1 - (A1 - B2)) with B2 by ring. replace (A2 + (A1 - A2)) with A1 by ring.
    unfold L1, L2 in *. unfold Rmin, Rmax. repeat (destruct (Rle_dec _ _)); lra. }
  assert (F2 : A1 - c01 ((A1 - A2) / L1) * L1 = A2 + c01 ((B1 - A2) / L2) * L2 /\ A2 + c01 ((B1 - A2) / L2) * L2 <= A2 + s2 * L2).
  { rewrite E1, E2. replace (A1 - (A1 - A2)) with A2 by ring. replace (A2 + (B1 - A2)) with B1 by ring.
    unfold L1, L2 in *. unfold Rmin, Rmax. repeat (destruct (Rle_dec _ _)); lra. }
  (* heights are affine in the coordinate *)
  assert (AFF : forall t q x, A1 - t * L1 = x -> A2 + q * L2 = x -> (h2 + q * k2) - (h1 + t * k1) = d + (x - (A2 + s2 * L2)) * (k2 / L2 + k1 / L1)).
  { intros t q x Ht Hq. rewrite <- ED. assert (T : t = s1 - (x - (A2 + s2 * L2)) / L1). { apply Rmult_eq_reg_r with L1; [|lra]. field_simplify; [|lra]. lra. }
    assert (Q : q = s2 + (x - (A2 + s2 * L2)) / L2). { apply Rmult_eq_reg_r with L2; [|lra]. field_simplify; [|lra]. lra. }
    rewrite T, Q. field. lra. }
  set (c := k2 / L2 + k1 / L1) in *. destruct (Rle_dec c 0) as [Hc|Hc]; [left|right].
  - apply gap_one with (t := c01 ((A1 - B2) / L1)) (q := c01 ((A1 - A2) / L2)); [replace (A1 - B2) with (- (B2 - A1)) by ring; apply X|apply Y|].
    rewrite (AFF _ _ _ (proj1 F1) eq_refl). destruct F1 as [_ F1]. assert (0 <= (A2 + c01 ((A1 - A2) / L2) * L2 - (A2 + s2 * L2)) * - c) by (apply Rmult_le_pos; lra). lra.
  - apply gap_one with (t := c01 ((A1 - A2) / L1)) (q := c01 ((B1 - A2) / L2)); [replace (A1 - A2) with (- (A2 - A1)) by ring; apply X|apply Y|].
    rewrite (AFF _ _ _ (proj1 F2) eq_refl). destruct F2 as [_ F2]. assert (0 <= (A2 + s2 * L2 - (A2 + c01 ((B1 - A2) / L2) * L2)) * c) by (apply Rmult_le_pos; lra). lra.
Qed.
End Gap.

(** ** ContactPoints *)
Lemma contact_found (e1 e2 : CEdge R) (pts : CPoints R) (info : CInfo R) x y m : let n := cp_n pts in
  ci_arr info = [] -> 0 <= ce_r e1 -> 0 <= ce_r e2 -> cp_d pts <= ce_r e1 + ce_r e2 ->
  on_segment (ce_a e1) (ce_b e1) x -> on_segment (ce_a e2) (ce_b e2) y -> cross x n = cross y n ->
  tol < cross (ce_a e1) n - cross (ce_b e1) n -> 0 < cross (ce_b e2) n - cross (ce_a e2) n ->
  Rabs (inner (vminus (ce_b e1) (ce_a e1)) n) * m <= cross (ce_a e1) n - cross (ce_b e1) n ->
  Rabs (inner (vminus (ce_b e2) (ce_a e2)) n) * m <= cross (ce_b e2) n - cross (ce_a e2) n ->
  0 < m -> inner (vminus y x) n * m + 2 * tol <= 0 ->
  exists info', contact_points e1 e2 pts info = Some info' /\ (1 <= length (ci_arr info') <= 2)%nat.
Proof.
  cbv zeta. intros Ei Hr1 Hr2 Hd (s1 & S1 & Ex) (s2 & S2 & Ey) Ec HL1 HL2 K1 K2 Hm Hdm. set (n := cp_n pts) in *.
  pose proof (gap_two tol (cross (ce_a e1) n) (cross (ce_b e1) n) (cross (ce_a e2) n) (cross (ce_b e2) n)
    (inner (ce_a e1) n) (inner (vminus (ce_b e1) (ce_a e1)) n) (inner (ce_a e2) n) (inner (vminus (ce_b e2) (ce_a e2)) n) m s1 s2 (inner (vminus y x) n)
    tol_pos HL1 HL2 S1 S2) as G.
  assert (G' := fun a b => G a b K1 K2 Hm Hdm). clear G.
  assert (Ga : cross (ce_a e1) n - s1 * (cross (ce_a e1) n - cross (ce_b e1) n) = cross (ce_a e2) n + s2 * (cross (ce_b e2) n - cross (ce_a e2) n)).
  { rewrite Ex, Ey in Ec. unfold cross, seg_point in *. cbn [vx vy] in *. lra. }
  assert (Gb : inner (ce_a e2) n + s2 * inner (vminus (ce_b e2) (ce_a e2)) n - (inner (ce_a e1) n + s1 * inner (vminus (ce_b e1) (ce_a e1)) n) = inner (vminus y x) n).
  { rewrite Ex, Ey. unfold inner, seg_point, vminus. cbn [vx vy]. ring. }
  specialize (G' Ga Gb). clear Ga Gb.
  unfold contact_points. cbv zeta. fold n. unR. replace (Rltb (ce_r e1 + ce_r e2) (cp_d pts)) with false by (symmetry; apply Rltb_false; lra).
  change (1 / 1000000000000000) with tol.
  change (@vcross R numR) with cross. change (@nclamp01 R numR) with c01.
  assert (N2 : 0 <= inner n n) by apply (norm2_nonneg n).
  assert (DOT : forall t q, vdot (vsub (vadd (vmult n (- ce_r e2)) (vlerp (ce_a e2) (ce_b e2) q)) (vadd (vmult n (ce_r e1)) (vlerp (ce_a e1) (ce_b e1) t))) n =
    (inner (ce_a e2) n + q * inner (vminus (ce_b e2) (ce_a e2)) n) - (inner (ce_a e1) n + t * inner (vminus (ce_b e1) (ce_a e1)) n) - (ce_r e1 + ce_r e2) * inner n n).
  { intros t q. unfold vdot, vsub, vadd, vmult, vlerp, inner, vminus. unfold vadd, vmult. unR. cbn [vx vy]. ring. }
  assert (RR : 0 <= (ce_r e1 + ce_r e2) * inner n n) by (apply Rmult_le_pos; lra).
  rewrite !DOT.
  match goal with |- context [if Rleb ?g 0 then push_contact _ ?p ?q ?h else _] => destruct (Rleb_spec g 0) as [H1|H1] end.
  - unfold push_contact at 1. cbn [set_n ci_arr]. rewrite Ei. cbn [length Nat.ltb Nat.leb app ci_arr ci_id ci_n].
    match goal with |- context [if Rleb ?g 0 then _ else _] => destruct (Rleb g 0) end.
    + unfold push_contact. cbn [length Nat.ltb Nat.leb app ci_arr ci_id ci_n]. eexists. split; [reflexivity|]. cbn. lia.
    + eexists. split; [reflexivity|]. cbn. lia.
  - destruct G' as [G|G]; [exfalso; lra|]. match goal with |- context [if Rleb ?g 0 then _ else _] => replace (Rleb g 0) with true by (symmetry; apply Rleb_true; lra) end.
    unfold push_contact. cbn [set_n ci_arr]. rewrite Ei. cbn [length Nat.ltb Nat.leb app ci_arr ci_id ci_n]. eexists. split; [reflexivity|]. cbn. lia.
Qed.

(** ** the supporting edge of a well-formed polygon *)
Lemma mod_next i c : (i < c)%nat -> ((i + 1) mod c = if i + 1 =? c then 0 else i + 1)%nat.
Proof. intros H. destruct (Nat.eqb_spec (i + 1) c) as [->|E]; [apply Nat.mod_same; lia|apply Nat.mod_small; lia]. Qed.
Lemma mod_prev i c : (i < c)%nat -> ((i + c - 1) mod c = if i =? 0 then c - 1 else i - 1)%nat.
Proof.
  intros H. destruct (Nat.eqb_spec i 0) as [->|E]; [apply Nat.mod_small; lia|]. replace (i + c - 1)%nat with (i - 1 + 1 * c)%nat by lia. rewrite Nat.mod_add by lia. apply Nat.mod_small. lia.
Qed.
Lemma last_nth {X} (l : list X) d d' : l <> [] -> last l d = nth (length l - 1) l d'.
Proof.
  induction l as [|x l IH]; [congruence|]. intros _. destruct l as [|y l]; [reflexivity|]. change (last (x :: y :: l) d) with (last (y :: l) d). rewrite IH by discriminate. cbn [length]. replace (S (S (length l)) - 1)%nat with (S (S (length l) - 1))%nat by lia. reflexivity.
Qed.
Lemma combine_in {X Y} (l : list X) (l' : list Y) d d' : forall k, (k < length l)%nat -> (k < length l')%nat -> In (nth k l d, nth k l' d') (combine l l').
Proof.
  revert l'. induction l as [|x l IH]; intros [|y l'] k H1 H2; cbn in *; try lia. destruct k as [|k]; [now left|]. right. apply IH; lia.
Qed.
Lemma pairs_prev (ps : list (Plane R)) i : (i < length ps)%nat -> In (plane_at ps ((i + length ps - 1) mod length ps), plane_at ps i) (pairs ps).
Proof.
  intros H. rewrite mod_prev by exact H. destruct ps as [|p0 ps]; [cbn in H; lia|]. unfold pairs. set (l := p0 :: ps) in *.
  pose proof (combine_in (last l p0 :: l) l plane0 plane0 i) as C. unfold plane_at.
  destruct (Nat.eqb_spec i 0) as [->|E].
  - rewrite <- (last_nth l p0 plane0) by (unfold l; discriminate). apply C; cbn [length]; lia.
  - destruct i as [|i]; [lia|]. replace (S i - 1)%nat with i by lia. apply C; cbn [length]; lia.
Qed.
Lemma pairs_next (ps : list (Plane R)) i : (i < length ps)%nat -> In (plane_at ps i, plane_at ps ((i + 1) mod length ps)) (pairs ps).
Proof.
  intros H. set (j := ((i + 1) mod length ps)%nat). assert (Hj : (j < length ps)%nat) by (apply Nat.mod_upper_bound; lia).
  pose proof (pairs_prev ps j Hj) as P. replace ((j + length ps - 1) mod length ps)%nat with i in P; [exact P|].
  rewrite mod_prev by exact Hj. unfold j. rewrite mod_next by exact H. destruct (Nat.eqb_spec (i + 1) (length ps)); cbn; [lia|]. destruct (Nat.eqb_spec (i + 1) 0); lia.
Qed.

Lemma hull_turn vs a b x : (forall v, In v vs -> 0 <= turn a b v) -> in_hull vs x -> 0 <= turn a b x.
Proof.
  intros H Hx. induction Hx as [v Hv|p q x _ IHp _ IHq (s & Hs & ->)]; [auto|].
  replace (turn a b (seg_point p q s)) with ((1 - s) * turn a b p + s * turn a b q) by (unfold turn, seg_point; cbn [vx vy]; ring).
  assert (0 <= (1 - s) * turn a b p) by (apply Rmult_le_pos; lra). assert (0 <= s * turn a b q) by (apply Rmult_le_pos; lra). lra.
Qed.
Lemma turn_ends a b : turn a b a = 0 /\ turn a b b = 0.
Proof. unfold turn. split; ring. Qed.
Lemma cauchy u v : inner u v <= norm u * norm v.
Proof.
  apply Rle_trans with (Rabs (inner u v)); [apply Rle_abs|]. apply sq_le; [apply Rabs_pos|apply Rmult_le_pos; apply norm_nonneg|].
  rewrite <- Rabs_mult, Rabs_pos_eq by apply sq_pos. replace (norm u * norm v * (norm u * norm v)) with ((norm u * norm u) * (norm v * norm v)) by ring.
  unfold norm. rewrite !sqrt_sqrt by apply norm2_nonneg. rewrite lagrange. pose proof (sq_pos (cross u v)). lra.
Qed.
Lemma mult_zero a b : a * b = 0 -> 0 < a -> b = 0.
Proof. intros H Ha. apply Rmult_integral in H as [H|H]; lra. Qed.
(** consecutive corners [u], [v], [w] with normals [m1], [m2]; [v] is extreme in direction [n] and so is [x] *)
Section Face.
Variables u v w u0 w2 m1 m2 n x : RV.
Variables k k1 k2 : R.
Hypothesis T : 0 < turn u v w.
Hypothesis T0 : 0 < turn u0 u v.
Hypothesis T2 : 0 < turn w w2 v.
Hypothesis Xu : 0 <= turn u0 u x.
Hypothesis Xa : 0 <= turn u v x.
Hypothesis Xb : 0 <= turn v w x.
Hypothesis Xw : 0 <= turn w w2 x.
Hypothesis Nn : n <> mkV 0 0.
Hypothesis Hu : inner u n <= inner v n.
Hypothesis Hw : inner w n <= inner v n.
Hypothesis Hx : inner x n = inner v n.
Hypothesis Hk1 : 0 < k1.
Hypothesis Hk2 : 0 < k2.
Hypothesis E1 : m1 = mkV (k1 * (vy v - vy u)) (- k1 * (vx v - vx u)).
Hypothesis E2 : m2 = mkV (k2 * (vy w - vy v)) (- k2 * (vx w - vx v)).
Hypothesis C1 : inner m1 m2 < inner m1 m1.
Hypothesis C2 : inner m1 m2 < inner m2 m2.
Hypothesis D1 : 2 * k <= inner m1 m1 + inner m1 m2.
Hypothesis D2 : 2 * k <= inner m2 m2 + inner m1 m2.
Hypothesis N1 : norm m1 <= 1.
Hypothesis N2 : norm m2 <= 1.
Lemma face_split : exists l m, 0 <= l /\ 0 <= m /\ vx x = vx v + l * (vx u - vx v) + m * (vx w - vx v) /\ vy x = vy v + l * (vy u - vy v) + m * (vy w - vy v) /\
  l * (inner v n - inner u n) = 0 /\ m * (inner v n - inner w n) = 0.
Proof.
  exists (turn v w x / turn u v w), (turn u v x / turn u v w). assert (L : 0 <= turn v w x / turn u v w) by (apply div_ge; lra). assert (M : 0 <= turn u v x / turn u v w) by (apply div_ge; lra).
  assert (EX : vx x = vx v + turn v w x / turn u v w * (vx u - vx v) + turn u v x / turn u v w * (vx w - vx v)) by (unfold turn in *; field; lra).
  assert (EY : vy x = vy v + turn v w x / turn u v w * (vy u - vy v) + turn u v x / turn u v w * (vy w - vy v)) by (unfold turn in *; field; lra).
  set (l := turn v w x / turn u v w) in *. set (m := turn u v x / turn u v w) in *. repeat (split; [assumption|]).
  assert (S : l * (inner v n - inner u n) + m * (inner v n - inner w n) = 0). { unfold inner in *. rewrite EX, EY in Hx. lra. }
  assert (0 <= l * (inner v n - inner u n)) by (apply Rmult_le_pos; lra). assert (0 <= m * (inner v n - inner w n)) by (apply Rmult_le_pos; lra). lra.
Qed.
Lemma face_prev : inner n m2 < inner n m1 -> on_segment u v x.
Proof.
  intros Hc. destruct face_split as (l & m & Hl & Hm & EX & EY & Zl & Zm).
  assert (M0 : m = 0).
  { destruct (Rlt_dec (inner w n) (inner v n)) as [H|H]; [rewrite Rmult_comm in Zm; apply mult_zero in Zm; lra|exfalso].
    assert (Z : inner w n = inner v n) by lra. (* n is along m2 *)
    set (t := (vx n * vx n + vy n * vy n)).
    assert (P : k2 * turn u v w * inner n m2 = inner m2 m2 * (inner v n - inner u n)).
    { rewrite E2. unfold inner, turn in *. cbn [vx vy].
      assert (Z' : vx n * (vx w - vx v) = - (vy n * (vy w - vy v))) by lra.
      set (dx := vx w - vx v) in *. set (dy := vy w - vy v) in *.
      replace (((vx v - vx u) * (vy w - vy u) - (vy v - vy u) * (vx w - vx u))) with ((vx v - vx u) * dy - (vy v - vy u) * dx) by (unfold dx, dy; ring).
      replace (vx v * vx n + vy v * vy n - (vx u * vx n + vy u * vy n)) with ((vx v - vx u) * vx n + (vy v - vy u) * vy n) by ring.
      set (p := vx v - vx u). set (q := vy v - vy u).
      assert (I : k2 * (p * dy - q * dx) * (vx n * (k2 * dy) + vy n * (- k2 * dx)) - (k2 * dy * (k2 * dy) + - k2 * dx * (- k2 * dx)) * (p * vx n + q * vy n) = - (k2 * k2) * (vx n * dx + vy n * dy) * (p * dx + q * dy)) by ring.
      rewrite Z' in I. replace (- (vy n * dy) + vy n * dy) with 0 in I by ring. lra. }
    assert (Q : k2 * turn u v w * inner n m1 = inner m1 m2 * (inner v n - inner u n)).
    { rewrite E1, E2. unfold inner, turn in *. cbn [vx vy].
      assert (Z' : vx n * (vx w - vx v) = - (vy n * (vy w - vy v))) by lra.
      set (dx := vx w - vx v) in *. set (dy := vy w - vy v) in *.
      replace (((vx v - vx u) * (vy w - vy u) - (vy v - vy u) * (vx w - vx u))) with ((vx v - vx u) * dy - (vy v - vy u) * dx) by (unfold dx, dy; ring).
      replace (vx v * vx n + vy v * vy n - (vx u * vx n + vy u * vy n)) with ((vx v - vx u) * vx n + (vy v - vy u) * vy n) by ring.
      set (p := vx v - vx u). set (q := vy v - vy u).
      assert (I : k2 * (p * dy - q * dx) * (vx n * (k1 * q) + vy n * (- k1 * p)) - (k1 * q * (k2 * dy) + - k1 * p * (- k2 * dx)) * (p * vx n + q * vy n) = - (k1 * k2) * (vx n * dx + vy n * dy) * (p * p + q * q)) by ring.
      rewrite Z' in I. replace (- (vy n * dy) + vy n * dy) with 0 in I by ring. lra. }
    assert (0 < k2 * turn u v w) by (apply Rmult_lt_0_compat; lra).
    assert (k2 * turn u v w * inner n m2 < k2 * turn u v w * inner n m1) by (apply Rmult_lt_compat_l; lra).
    rewrite P, Q in H1. assert (0 <= (inner m2 m2 - inner m1 m2) * (inner v n - inner u n)) by (apply Rmult_le_pos; lra). lra. }
  rewrite M0 in *. exists (1 - l). split; [|apply vec_eq; unfold seg_point; cbn [vx vy]; lra]. split; [|lra].
  assert (E : turn u0 u x = (1 - l) * turn u0 u v). { unfold turn. rewrite EX, EY. ring. }
  rewrite E in Xu. destruct (Rle_dec l 1); [lra|]. assert (0 < (l - 1) * turn u0 u v) by (apply Rmult_lt_0_compat; lra). lra.
Qed.
Lemma face_next : inner n m1 <= inner n m2 -> on_segment v w x.
Proof.
  intros Hc. destruct face_split as (l & m & Hl & Hm & EX & EY & Zl & Zm).
  assert (L0 : l = 0).
  { destruct (Rlt_dec (inner u n) (inner v n)) as [H|H]; [rewrite Rmult_comm in Zl; apply mult_zero in Zl; lra|exfalso].
    assert (Z : inner u n = inner v n) by lra.
    assert (P : k1 * turn u v w * inner n m1 = inner m1 m1 * (inner v n - inner w n)).
    { rewrite E1. unfold inner, turn in *. cbn [vx vy].
      assert (Z' : vx n * (vx v - vx u) = - (vy n * (vy v - vy u))) by lra.
      replace (vx v * vx n + vy v * vy n - (vx w * vx n + vy w * vy n)) with (- ((vx w - vx v) * vx n + (vy w - vy v) * vy n)) by ring.
      replace (((vx v - vx u) * (vy w - vy u) - (vy v - vy u) * (vx w - vx u))) with ((vx v - vx u) * (vy w - vy v) - (vy v - vy u) * (vx w - vx v)) by ring.
      set (dx := vx w - vx v) in *. set (dy := vy w - vy v) in *. set (p := vx v - vx u) in *. set (q := vy v - vy u) in *.
      assert (I : k1 * (p * dy - q * dx) * (vx n * (k1 * q) + vy n * (- k1 * p)) - (k1 * q * (k1 * q) + - k1 * p * (- k1 * p)) * - (dx * vx n + dy * vy n) = k1 * k1 * (vx n * p + vy n * q) * (p * dx + q * dy)) by ring.
      rewrite Z' in I. replace (- (vy n * q) + vy n * q) with 0 in I by ring. lra. }
    assert (Q : k1 * turn u v w * inner n m2 = inner m1 m2 * (inner v n - inner w n)).
    { rewrite E1, E2. unfold inner, turn in *. cbn [vx vy].
      assert (Z' : vx n * (vx v - vx u) = - (vy n * (vy v - vy u))) by lra.
      replace (vx v * vx n + vy v * vy n - (vx w * vx n + vy w * vy n)) with (- ((vx w - vx v) * vx n + (vy w - vy v) * vy n)) by ring.
      replace (((vx v - vx u) * (vy w - vy u) - (vy v - vy u) * (vx w - vx u))) with ((vx v - vx u) * (vy w - vy v) - (vy v - vy u) * (vx w - vx v)) by ring.
      set (dx := vx w - vx v) in *. set (dy := vy w - vy v) in *. set (p := vx v - vx u) in *. set (q := vy v - vy u) in *.
      assert (I : k1 * (p * dy - q * dx) * (vx n * (k2 * dy) + vy n * (- k2 * dx)) - (k1 * q * (k2 * dy) + - k1 * p * (- k2 * dx)) * - (dx * vx n + dy * vy n) = k1 * k2 * (vx n * p + vy n * q) * (dx * dx + dy * dy)) by ring.
      rewrite Z' in I. replace (- (vy n * q) + vy n * q) with 0 in I by ring. lra. }
    assert (PP : 0 < k1 * turn u v w) by (apply Rmult_lt_0_compat; lra).
    assert (H1 : k1 * turn u v w * inner n m1 <= k1 * turn u v w * inner n m2) by (apply Rmult_le_compat_l; lra).
    rewrite P, Q in H1. destruct (Req_dec (inner v n) (inner w n)) as [E|E].
    - apply Nn. assert (Za : vx n * (vx v - vx u) + vy n * (vy v - vy u) = 0) by (unfold inner in *; lra). assert (Zb : vx n * (vx w - vx v) + vy n * (vy w - vy v) = 0) by (unfold inner in *; lra).
      assert (Tx : turn u v w * vx n = 0).
      { replace (turn u v w * vx n) with ((vx n * (vx v - vx u) + vy n * (vy v - vy u)) * (vy w - vy v) - (vx n * (vx w - vx v) + vy n * (vy w - vy v)) * (vy v - vy u)) by (unfold turn; ring). rewrite Za, Zb. ring. }
      assert (Ty : turn u v w * vy n = 0).
      { replace (turn u v w * vy n) with ((vx n * (vx w - vx v) + vy n * (vy w - vy v)) * (vx v - vx u) - (vx n * (vx v - vx u) + vy n * (vy v - vy u)) * (vx w - vx v)) by (unfold turn; ring). rewrite Za, Zb. ring. }
      apply vec_eq; cbn [vx vy]; eapply mult_zero; eauto.
    - assert (0 < (inner m1 m1 - inner m1 m2) * (inner v n - inner w n)) by (apply Rmult_lt_0_compat; lra). lra. }
  rewrite L0 in *. exists m. split; [|apply vec_eq; unfold seg_point; cbn [vx vy]; lra]. split; [lra|].
  assert (E : turn w w2 x = (1 - m) * turn w w2 v). { unfold turn. rewrite EX, EY. ring. }
  rewrite E in Xw. destruct (Rle_dec m 1); [lra|]. assert (0 < (m - 1) * turn w w2 v) by (apply Rmult_lt_0_compat; lra). lra.
Qed.
(** the normal of the chosen edge is along [n] *)
Lemma face_blunt : 0 < k -> k * norm n <= Rmax (inner n m1) (inner n m2).
Proof.
  intros Hk. set (c := k1 * k2 * turn u v w). assert (Pc : 0 < c) by (unfold c; apply Rmult_lt_0_compat; [apply Rmult_lt_0_compat|]; assumption).
  set (al := k2 * (inner v n - inner w n) / c). set (be := k1 * (inner v n - inner u n) / c).
  assert (Ha : 0 <= al) by (unfold al; apply div_ge; [exact Pc|]; assert (0 <= k2 * (inner v n - inner w n)) by (apply Rmult_le_pos; lra); lra).
  assert (Hb : 0 <= be) by (unfold be; apply div_ge; [exact Pc|]; assert (0 <= k1 * (inner v n - inner u n)) by (apply Rmult_le_pos; lra); lra).
  assert (EX : vx n = al * vx m1 + be * vx m2).
  { apply Rmult_eq_reg_l with c; [|lra]. unfold al, be. replace (c * (k2 * (inner v n - inner w n) / c * vx m1 + k1 * (inner v n - inner u n) / c * vx m2)) with (k2 * (inner v n - inner w n) * vx m1 + k1 * (inner v n - inner u n) * vx m2) by (field; lra).
    rewrite E1, E2. unfold c, turn, inner. cbn [vx vy]. ring. }
  assert (EY : vy n = al * vy m1 + be * vy m2).
  { apply Rmult_eq_reg_l with c; [|lra]. unfold al, be. replace (c * (k2 * (inner v n - inner w n) / c * vy m1 + k1 * (inner v n - inner u n) / c * vy m2)) with (k2 * (inner v n - inner w n) * vy m1 + k1 * (inner v n - inner u n) * vy m2) by (field; lra).
    rewrite E1, E2. unfold c, turn, inner. cbn [vx vy]. ring. }
  pose proof (norm_pos n Nn) as Pn.
  assert (LN : norm n <= al + be).
  { apply Rmult_le_reg_r with (norm n); [exact Pn|]. replace (norm n * norm n) with (inner n n) by (unfold norm; rewrite sqrt_sqrt by apply norm2_nonneg; reflexivity).
    replace (inner n n) with (al * inner n m1 + be * inner n m2) by (transitivity (vx n * (al * vx m1 + be * vx m2) + vy n * (al * vy m1 + be * vy m2)); [unfold inner; ring|rewrite <- EX, <- EY; reflexivity]).
    assert (CB : forall m, norm m <= 1 -> inner n m <= norm n). { intros m Hm. eapply Rle_trans; [apply cauchy|]. assert (0 <= norm n * (1 - norm m)) by (apply Rmult_le_pos; lra). lra. }
    assert (0 <= al * (norm n - inner n m1)) by (apply Rmult_le_pos; [exact Ha|]; specialize (CB m1 N1); lra).
    assert (0 <= be * (norm n - inner n m2)) by (apply Rmult_le_pos; [exact Hb|]; specialize (CB m2 N2); lra). lra. }
  assert (S : 2 * k * (al + be) <= inner n m1 + inner n m2).
  { replace (inner n m1 + inner n m2) with (al * (inner m1 m1 + inner m1 m2) + be * (inner m2 m2 + inner m1 m2)) by (unfold inner; rewrite EX, EY; ring).
    assert (0 <= al * (inner m1 m1 + inner m1 m2 - 2 * k)) by (apply Rmult_le_pos; lra). assert (0 <= be * (inner m2 m2 + inner m1 m2 - 2 * k)) by (apply Rmult_le_pos; lra). lra. }
  assert (k * norm n <= k * (al + be)) by (apply Rmult_le_compat_l; lra).
  unfold Rmax. destruct (Rle_dec _ _); lra.
Qed.
End Face.
Lemma vec_dec (a b : RV) : a = b \/ a <> b.
Proof. destruct (Req_dec (vx a) (vx b)) as [E1|E1]; [destruct (Req_dec (vy a) (vy b)) as [E2|E2]; [left; now apply vec_eq|]|]; right; intros ->; auto. Qed.
Lemma cross_diff (a b n : RV) : cross a n - cross b n = (vy b - vy a) * vx n - (vx b - vx a) * vy n.
Proof. unfold cross. ring. Qed.
(** an edge with its normal, which is along [n] *)
Lemma edge_slope (a b m n : RV) c k : 0 < c -> m = mkV (c * (vy b - vy a)) (- c * (vx b - vx a)) -> norm m <= 1 -> 0 < k -> k * norm n <= inner n m ->
  dist a b * k * norm n <= cross a n - cross b n /\ Rabs (inner (vminus b a) n) * k <= cross a n - cross b n.
Proof.
  intros Hc Em Nm Hk Hn. rewrite dist_uw. set (e := vminus b a).
  assert (E : inner n m = c * (cross a n - cross b n)) by (rewrite Em; unfold inner, cross; cbn [vx vy]; ring).
  assert (Ne : norm m = c * norm e).
  { rewrite <- norm_scale by lra. unfold norm. f_equal. rewrite Em. unfold norm2, vscale, e, vminus. cbn [vx vy]. ring. }
  rewrite Ne in Nm. rewrite E in Hn. pose proof (norm_nonneg e) as Pe. pose proof (norm_nonneg n) as Pn.
  assert (L : norm e * k * norm n <= cross a n - cross b n).
  { apply Rmult_le_reg_l with c; [exact Hc|]. eapply Rle_trans; [|exact Hn]. replace (c * (norm e * k * norm n)) with ((c * norm e) * (k * norm n)) by ring.
    assert (0 <= (1 - c * norm e) * (k * norm n)) by (apply Rmult_le_pos; [lra|apply Rmult_le_pos; lra]). lra. }
  split; [exact L|]. eapply Rle_trans; [|exact L]. replace (norm e * k * norm n) with (norm e * norm n * k) by ring. apply Rmult_le_compat_r; [lra|].
  apply Rabs_le. split; [|apply cauchy]. pose proof (cauchy (vscale (-1) e) n) as C. replace (norm (vscale (-1) e)) with (norm e) in C by (unfold norm, norm2, vscale; cbn [vx vy]; f_equal; ring).
  replace (inner (vscale (-1) e) n) with (- inner e n) in C by (unfold inner, vscale; cbn [vx vy]; ring). lra.
Qed.
Lemma wf_weak len k ps p q : well_formed len k ps -> In (p, q) (pairs ps) -> forall z, In z (map pl_v0 ps) -> 0 <= turn (pl_v0 p) (pl_v0 q) z.
Proof.
  intros W Hp z (s & <- & Hs)%in_map_iff. destruct (turn_ends (pl_v0 p) (pl_v0 q)) as [Z1 Z2].
  destruct (vec_dec (pl_v0 s) (pl_v0 p)) as [->|N1]; [lra|]. destruct (vec_dec (pl_v0 s) (pl_v0 q)) as [->|N2]; [lra|]. left. now apply (wf_convex _ _ _ W).
Qed.
Lemma wf_ne len k ps i j : well_formed len k ps -> (i < length ps)%nat -> (j < length ps)%nat -> i <> j -> pl_v0 (plane_at ps i) <> pl_v0 (plane_at ps j).
Proof.
  intros W Hi Hj Hij E. apply Hij. pose proof (wf_different _ _ _ W) as ND. eapply (proj1 (NoDup_nth (map pl_v0 ps) (pl_v0 plane0)) ND); rewrite ?map_length; auto. now rewrite !map_nth.
Qed.
Lemma edge_spec len k ps r hid n x : well_formed len k ps -> regular (Poly ps r) -> 0 < k -> n <> mkV 0 0 -> norm n <= 1 ->
  in_hull (map pl_v0 ps) x -> (forall z, in_hull (map pl_v0 ps) z -> inner z n <= inner x n) ->
  let e := edge_for_poly ps r hid n in ce_r e = r /\ on_segment (ce_a e) (ce_b e) x /\
  len * k * norm n <= cross (ce_a e) n - cross (ce_b e) n /\ Rabs (inner (vminus (ce_b e) (ce_a e)) n) * k <= cross (ce_a e) n - cross (ce_b e) n.
Proof.
  intros W RG Hk Nn N1 Hx Hmax. pose proof (wf_three _ _ _ W) as H3. set (c := length ps) in *.
  assert (Hne : ps <> []) by (intros ->; cbn in *; lia).
  destruct (psi_spec ps n Hne) as [Hi Hs]. set (i1 := poly_support_index ps n) in *. fold c in Hi.
  assert (Bn : big n).
  { assert (B1 : forall z, z * z <= norm2 n -> Rabs z <= 1). { intros z Hz. apply sq_le; [apply Rabs_pos|lra|]. rewrite <- Rabs_mult, Rabs_pos_eq by apply sq_pos. unfold norm in N1. rewrite <- sqrt_1 in N1. apply sqrt_le_0 in N1; [lra|apply norm2_nonneg|lra]. }
    pose proof (sq_pos (vx n)). pose proof (sq_pos (vy n)). assert (1 <= 4 * huge) by (pose proof huge_ge1; lra).
    split; (eapply Rle_trans; [apply B1; unfold norm2; lra|assumption]). }
  assert (Hs' : forall q, In q ps -> inner (pl_v0 q) n <= inner (pl_v0 (plane_at ps i1)) n).
  { apply Hs. intros q Hq. apply (dot_small (Poly ps r)); auto. cbn [corners]. now apply in_map. }
  set (i0 := ((i1 + c - 1) mod c)%nat). set (i2 := ((i1 + 1) mod c)%nat). set (i3 := ((i2 + 1) mod c)%nat). set (im := ((i0 + c - 1) mod c)%nat).
  assert (I0 : (i0 < c)%nat) by (apply Nat.mod_upper_bound; lia). assert (I2 : (i2 < c)%nat) by (apply Nat.mod_upper_bound; lia).
  assert (I3 : (i3 < c)%nat) by (apply Nat.mod_upper_bound; lia). assert (Im : (im < c)%nat) by (apply Nat.mod_upper_bound; lia).
  assert (DD : i0 <> i1 /\ i1 <> i2 /\ i0 <> i2 /\ i3 <> i1 /\ im <> i1).
  { unfold i3, im. rewrite mod_next, mod_prev by assumption. unfold i0, i2. rewrite mod_prev, mod_next by assumption.
    destruct (Nat.eqb_spec i1 0); destruct (Nat.eqb_spec (i1 + 1) c); repeat match goal with |- context [Nat.eqb ?a ?b] => destruct (Nat.eqb_spec a b) end; lia. }
  destruct DD as (D1 & D2 & D3 & D4 & D5).
  assert (P01 : In (plane_at ps i0, plane_at ps i1) (pairs ps)) by now apply pairs_prev.
  assert (P12 : In (plane_at ps i1, plane_at ps i2) (pairs ps)) by now apply pairs_next.
  assert (P23 : In (plane_at ps i2, plane_at ps i3) (pairs ps)) by now apply pairs_next.
  assert (Pm0 : In (plane_at ps im, plane_at ps i0) (pairs ps)) by now apply pairs_prev.
  assert (IN : forall i, (i < c)%nat -> In (plane_at ps i) ps) by (intros i H; now apply nth_In).
  assert (Xv : inner x n = inner (pl_v0 (plane_at ps i1)) n).
  { apply Rle_antisym; [|apply Hmax, hull_vertex, in_map, IN, Hi]. apply (hull_le (map pl_v0 ps)); [|exact Hx]. intros v (q & <- & Hq)%in_map_iff. now apply Hs'. }
  destruct (wf_normal _ _ _ W _ _ P01) as [Nm1 (c1 & Hc1 & E1)]. destruct (wf_normal _ _ _ W _ _ P12) as [Nm2 (c2 & Hc2 & E2)].
  destruct (wf_corner _ _ _ W _ _ P12) as (C1 & C2 & K1 & K2).
  assert (T : 0 < turn (pl_v0 (plane_at ps i0)) (pl_v0 (plane_at ps i1)) (pl_v0 (plane_at ps i2))).
  { apply (wf_convex _ _ _ W _ _ _ P01); [apply IN, I2| |]; apply (wf_ne _ _ _ _ _ W); auto; lia. }
  assert (T0 : 0 < turn (pl_v0 (plane_at ps im)) (pl_v0 (plane_at ps i0)) (pl_v0 (plane_at ps i1))).
  { apply (wf_convex _ _ _ W _ _ _ Pm0); [apply IN, Hi| |]; apply (wf_ne _ _ _ _ _ W); auto; lia. }
  assert (T2 : 0 < turn (pl_v0 (plane_at ps i2)) (pl_v0 (plane_at ps i3)) (pl_v0 (plane_at ps i1))).
  { apply (wf_convex _ _ _ W _ _ _ P23); [apply IN, Hi| |]; apply (wf_ne _ _ _ _ _ W); auto; lia. }
  pose proof (hull_turn _ _ _ x (wf_weak _ _ _ _ _ W Pm0) Hx) as Xa. pose proof (hull_turn _ _ _ x (wf_weak _ _ _ _ _ W P01) Hx) as Xb.
  pose proof (hull_turn _ _ _ x (wf_weak _ _ _ _ _ W P12) Hx) as Xc. pose proof (hull_turn _ _ _ x (wf_weak _ _ _ _ _ W P23) Hx) as Xd.
  pose proof (face_blunt _ _ _ _ _ n k _ _ T Nn (Hs' _ (IN _ I0)) (Hs' _ (IN _ I2)) Hc1 Hc2 E1 E2 K1 K2 Nm1 Nm2 Hk) as FB.
  cbv zeta. unfold edge_for_poly. fold c. fold i1. fold i0. fold i2. cbv zeta. fold i0 i2.
  change (@vdot R numR) with inner. cbn [nltb numR].
  destruct (Rltb_spec (inner n (pl_n (plane_at ps i2))) (inner n (pl_n (plane_at ps i1)))) as [H|H]; cbn [ce_a ce_b ce_r].
  - split; [reflexivity|]. split.
    + exact (face_prev _ _ _ _ _ _ _ _ _ _ T T0 Xa Xb Xc (Hs' _ (IN _ I0)) (Hs' _ (IN _ I2)) Xv Hc2 E1 E2 C2 H).
    + rewrite Rmax_left in FB by lra. destruct (edge_slope _ _ _ _ _ _ Hc1 E1 Nm1 Hk FB) as [S1 S2]. split; [|exact S2]. eapply Rle_trans; [|exact S1].
      apply Rmult_le_compat_r; [apply norm_nonneg|]. apply Rmult_le_compat_r; [lra|]. apply (wf_long _ _ _ W _ _ P01).
  - split; [reflexivity|]. assert (H' : inner n (pl_n (plane_at ps i1)) <= inner n (pl_n (plane_at ps i2))) by lra. split.
    + exact (face_next _ _ _ _ _ _ _ _ _ _ T T2 Xb Xc Xd Nn (Hs' _ (IN _ I0)) (Hs' _ (IN _ I2)) Xv Hc1 E1 E2 C1 H').
    + rewrite Rmax_right in FB by lra. destruct (edge_slope _ _ _ _ _ _ Hc2 E2 Nm2 Hk FB) as [S1 S2]. split; [|exact S2]. eapply Rle_trans; [|exact S1].
      apply Rmult_le_compat_r; [apply norm_nonneg|]. apply Rmult_le_compat_r; [lra|]. apply (wf_long _ _ _ W _ _ P12).
Qed.

(** ** how EPA ends: the two points are extreme along the normal, and their difference is along it *)
Record Ended (A B : Shape R) (pts : CPoints R) (d : R) : Prop := {
  en_a : core A (cp_a pts); en_b : core B (cp_b pts);
  en_amax : forall z, core A z -> inner z (cp_n pts) <= inner (cp_a pts) (cp_n pts);
  en_bmin : forall z, core B z -> inner (cp_b pts) (cp_n pts) <= inner z (cp_n pts);
  en_par : cross (cp_a pts) (cp_n pts) = cross (cp_b pts) (cp_n pts);
  en_ne : cp_n pts <> mkV 0 0; en_norm : norm (cp_n pts) <= 1; en_half : 1 / 2 <= norm (cp_n pts);
  en_d : cp_d pts <= 0;
  en_deep : inner (vminus (cp_b pts) (cp_a pts)) (cp_n pts) <= - d / 2 }.
Lemma fin_ended A B pts d : regular A -> regular B -> 0 <= d -> deeper d (core A) (core B) ->
  (forall u w, differs A B u -> differs A B w -> u <> w -> tol <= dist u w) -> fin A B pts -> Ended A B pts d.
Proof.
  intros RA RB Hd0 DP AP (v0 & v1 & -> & G0 & G1 & Hc & Hside & Hball).
  destruct (closest_sep A B RA RB v0 v1 G0 G1) as (Ca & Cb & s & Hs & Es & Ep).
  pose proof (cp_unfold v0 v1) as HC. cbv zeta in HC. unfold foot in Hball. rewrite Es in HC, Hball. set (p := seg_point _ _ _) in *.
  pose proof (edge_k_pos (mk_ab v0) (mk_ab v1)) as Kp. assert (Hd : edge_k (mk_ab v0) (mk_ab v1) * cross (mk_ab v0) (mk_ab v1) < 0).
  { assert (0 < edge_k (mk_ab v0) (mk_ab v1) * (- cross (mk_ab v0) (mk_ab v1))) by (apply Rmult_lt_0_compat; lra). lra. }
  destruct HC as [(_ & En & Ed)|(Hd' & _)]; [|lra].
  set (pts := closest_points v0 v1) in *. set (a := cp_a pts) in *. set (b := cp_b pts) in *. set (u := mk_ab v0) in *. set (w := mk_ab v1) in *.
  assert (Huw : u <> w) by now apply cross_ne.
  set (q := vperp (vsub w u)) in *.
  assert (Enq : cp_n pts = vscale (- edge_k u w) q).
  { rewrite En. unfold edge_n. rewrite normalize_eq. replace (norm (vrperp (vsub w u))) with (norm (vminus w u)) by (unfold norm, norm2, vrperp, vminus, vsub; unR; cbn [vx vy]; f_equal; ring).
    fold tol. fold (edge_k u w). unfold q, vscale, vrperp, vperp, vsub. unR. apply vec_eq; cbn [vx vy]; ring. }
  set (k := edge_k u w) in *. set (n := cp_n pts) in *.
  assert (IQ : forall z, inner z n = - k * inner z q) by (intros z; rewrite Enq; unfold inner, vscale; cbn [vx vy]; ring).
  assert (Pq : inner p q = inner u q) by (unfold p, q, inner, seg_point, vperp, vsub; unR; cbn [vx vy]; ring).
  assert (Nq : q <> mkV 0 0). { intros E. apply Huw. unfold q, vperp, vsub in E. unR. injection E as E1 E2. apply vec_eq; lra. }
  pose proof (norm2_pos q Nq) as Pq2. pose proof (norm_pos q Nq) as Pq1.
  assert (Hp0 : 0 < inner p q). { rewrite Pq. unfold q, inner, vperp, vsub. unR. cbn [vx vy]. unfold cross in Hc. lra. }
  assert (SD : forall x y, core A x -> core B y -> inner (vminus y x) q <= inner p q) by (intros x y Hx Hy; rewrite Pq; apply Hside; exists x, y; auto).
  (* the disc of radius |p| is on one side, so p is along q *)
  assert (CP : norm2 p * norm2 q <= inner p q * inner p q).
  { destruct (Rle_dec (norm2 p * norm2 q) (inner p q * inner p q)) as [|N]; [assumption|exfalso].
    assert (NN : inner p q * inner p q < norm2 p * norm2 q) by lra.
    (* a point of the disc beyond the line *)
    set (z := inner p q / norm2 q). assert (Pz : 0 < z) by (unfold z; apply Rdiv_lt_0_compat; lra).
    assert (Ez : z * norm2 q = inner p q) by (unfold z; field; lra).
    assert (Z2 : z * z * norm2 q < norm2 p). { apply Rmult_lt_reg_r with (norm2 q); [exact Pq2|]. replace (z * z * norm2 q * norm2 q) with ((z * norm2 q) * (z * norm2 q)) by ring. rewrite Ez. exact NN. }
    set (gapz := norm2 p - z * z * norm2 q) in *. assert (Pg : 0 < gapz) by (unfold gapz; lra).
    set (t := Rmin z (gapz / (4 * z * norm2 q))). assert (Hzq : 0 < 4 * z * norm2 q) by (apply Rmult_lt_0_compat; lra).
    assert (Pt : 0 < t) by (unfold t; apply Rmin_glb_lt; [exact Pz|now apply Rdiv_lt_0_compat]).
    assert (Tz : t <= z) by apply Rmin_l. assert (Tg : t * (4 * z * norm2 q) <= gapz).
    { apply Rle_trans with (gapz / (4 * z * norm2 q) * (4 * z * norm2 q)); [apply Rmult_le_compat_r; [lra|apply Rmin_r]|right; field; lra]. }
    assert (HB : norm2 (vscale (z + t) q) < norm2 p).
    { replace (norm2 (vscale (z + t) q)) with (z * z * norm2 q + t * (2 * z * norm2 q) + t * (t * norm2 q)) by (unfold norm2, vscale; cbn [vx vy]; ring).
      assert (t * (t * norm2 q) <= t * (z * norm2 q)) by (apply Rmult_le_compat_l; [lra|]; apply Rmult_le_compat_r; lra).
      assert (t * (2 * z * norm2 q) + t * (z * norm2 q) <= 3 / 4 * gapz) by lra. unfold gapz in *. lra. }
    destruct (Hball _ HB) as (x & y & Hx & Hy & E). pose proof (SD x y Hx Hy) as S. rewrite <- E in S.
    replace (inner (vscale (z + t) q) q) with (z * norm2 q + t * norm2 q) in S by (unfold inner, norm2, vscale; cbn [vx vy]; ring).
    rewrite Ez in S. assert (0 < t * norm2 q) by (apply Rmult_lt_0_compat; lra). lra. }
  assert (CR : cross p q = 0).
  { pose proof (lagrange p q) as L. pose proof (sq_pos (cross p q)) as S. assert (Z : cross p q * cross p q = 0) by lra. apply Rmult_integral in Z as [Z|Z]; exact Z. }
  (* the length of n *)
  assert (Nn1 : norm n <= 1) by (rewrite En; apply edge_norm).
  assert (NW : norm q = dist u w). { rewrite dist_uw. unfold norm. f_equal. unfold q, norm2, vperp, vsub, vminus. unR. cbn [vx vy]. ring. }
  assert (Hw : tol <= dist u w) by (apply AP; auto; now apply differs_ab).
  assert (Nk : norm n = k * norm q). { unfold norm at 1. rewrite Enq. replace (norm2 (vscale (- k) q)) with (norm2 (vscale k q)) by (unfold norm2, vscale; cbn [vx vy]; ring). rewrite <- (norm_scale k q) by lra. reflexivity. }
  pose proof tol_pos as TP.
  assert (Nh : 1 / 2 <= norm n). { rewrite Nk. unfold k, edge_k. rewrite <- dist_uw, <- NW in *. replace (1 / (norm q + tol) * norm q) with (norm q / (norm q + tol)) by (field; lra). apply div_ge; lra. }
  assert (EB : vminus b a = p) by exact Ep.
  constructor; fold a b n.
  - exact Ca.
  - exact Cb.
  - intros z Hz. rewrite !IQ. specialize (SD z b Hz Cb). rewrite <- EB in SD. assert (inner a q <= inner z q) by (unfold inner, vminus in *; cbn [vx vy] in *; lra).
    assert (0 <= k * (inner z q - inner a q)) by (apply Rmult_le_pos; lra). lra.
  - intros z Hz. rewrite !IQ. specialize (SD a z Ca Hz). rewrite <- EB in SD. assert (inner z q <= inner b q) by (unfold inner, vminus in *; cbn [vx vy] in *; lra).
    assert (0 <= k * (inner b q - inner z q)) by (apply Rmult_le_pos; lra). lra.
  - rewrite <- EB in CR. rewrite Enq. unfold cross, vscale, vminus in *. cbn [vx vy] in *.
    assert (I : - k * ((vx b - vx a) * vy q - (vy b - vy a) * vx q) = 0) by (rewrite CR; ring). lra.
  - intros E. assert (norm n = 0) by (rewrite E; unfold norm, norm2; cbn [vx vy]; replace (0 * 0 + 0 * 0) with 0 by ring; apply sqrt_0). lra.
  - exact Nn1.
  - exact Nh.
  - rewrite Ed. lra.
  - rewrite EB, IQ.
    (* displacements by up to d do not reach beyond p *)
    assert (DQ : d * norm q <= inner p q).
    { set (f := vscale (- (d / norm q)) q). destruct (DP f) as (x & Hx & Hy).
      - unfold f. replace (norm (vscale (- (d / norm q)) q)) with (norm (vscale (d / norm q) q)) by (unfold norm, norm2, vscale; cbn [vx vy]; f_equal; ring).
        rewrite norm_scale by (apply div_ge; lra). right. field. lra.
      - unfold moved in Hy. specialize (SD x (vminus x f) Hx Hy). eapply Rle_trans; [|exact SD]. right.
        replace (inner (vminus (vminus x f) x) q) with (d / norm q * norm2 q) by (unfold f, inner, norm2, vminus, vscale; cbn [vx vy]; ring).
        replace (norm2 q) with (norm q * norm q) by (unfold norm; apply sqrt_sqrt, norm2_nonneg). field. lra. }
    assert (k * (d * norm q) <= k * inner p q) by (apply Rmult_le_compat_l; lra).
    assert (d * (1 / 2) <= d * norm n) by (apply Rmult_le_compat_l; lra). rewrite Nk in H0. lra.
Qed.
