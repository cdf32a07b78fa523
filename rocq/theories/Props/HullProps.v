(** Properties C47, C84, C85: ConvexHull. *)
From Coq Require Import Reals ZArith List Arith Bool Lia Lra Permutation.
From Verif Require Import Num Spec SpecShapes.
From Verif.Model Require Import Vector Transform Hull.
From Verif.Proofs Require Import RTac Geom ShapePf HullPf HullGeo.
Import ListNotations.

(** ** C47.  In binary64, for every nonempty list of points (NaN and infinities included) and every tolerance: ConvexHull returns, with no index out of
    range; the array keeps its length, and the points in front of it, between one and all of them, are input points.  [*first] is where the first of them was. *)
Theorem C47_returns : forall (vs : list (Vec F)) tol, vs <> [] -> exists arr n first, convex_hull vs tol = Some (arr, n, first) /\
  length arr = length vs /\ (1 <= n <= length vs)%nat /\ incl (firstn n arr) vs.
Proof.
  intros vs tol Hn. destruct (convex_hull_spec vs tol Hn) as [[E C]|[E (a & b & rest & chain & junk & Ea & Eb & P & Q & LN & C)]]; rewrite C; eexists _, _, _; (split; [reflexivity|]).
  - destruct vs as [|v l]; [contradiction|]. split; [reflexivity|]. split; [cbn; lia|]. cbn. intros x [<-|[]]. cbn. auto.
  - pose proof (Permutation_length P) as LP. cbn [length] in *. split; [rewrite app_length; lia|]. split; [lia|]. cbn [firstn]. rewrite firstn_app, Nat.sub_diag, firstn_all. cbn [firstn]. rewrite app_nil_r.
    assert (I := proj1 (qh_incl tol) _ _ _ _ _ Q). intros x [<-|Hx]; [eapply nth_error_In; eauto|]. apply I in Hx as [<-|Hx]; [eapply nth_error_In; eauto|]. eapply Permutation_in; [symmetry; exact P|]. cbn. auto.
Qed.
(** Over the reals, for every tolerance >= 0: the hull consists of distinct input points, counter-clockwise and convex (no vertex to the right of an edge), and
    starts at the input point [*first]. *)
Theorem C47_convex : forall (vs : list RV) tol, 0 <= tol -> vs <> [] -> exists arr n first, convex_hull vs tol = Some (arr, n, first) /\
  let hull := firstn n arr in (1 <= length hull)%nat /\ incl hull vs /\ NoDup hull /\ (forall u w x, In (u, w) (ring hull) -> In x hull -> 0 <= turn u w x) /\
    (2 <= length hull -> nth_error vs first = hd_error hull)%nat.
Proof.
  intros vs tol Ht Hn. destruct (hull_ok tol vs Ht Hn) as (arr & n & first & C & L & B & [I ND CV _ _ _] & HF & N1). exists arr, n, first. split; [exact C|]. cbv zeta.
  split; [rewrite firstn_length, L; lia|]. split; [exact I|]. split; [exact ND|]. split; [exact CV|]. intros _. rewrite HF. destruct n; [lia|]. destruct arr; reflexivity.
Qed.
(** With tolerance 0 it contains every input point: each is in the convex hull of its vertices and to the left of (or on) each of its edges. *)
Theorem C47_contains : forall (vs : list RV), vs <> [] -> exists arr n first, convex_hull vs 0 = Some (arr, n, first) /\
  let hull := firstn n arr in forall x, In x vs -> in_hull hull x /\ region hull x.
Proof.
  intros vs Hn. destruct (hull_ok 0 vs (Rle_refl 0) Hn) as (arr & n & first & C & L & B & HH & HF & N1). exists arr, n, first. split; [exact C|]. cbv zeta.
  intros x Hx. split; [now apply (h_hull _ _ _ HH)|]. intros u w Huw. now apply (h_all _ _ _ HH).
Qed.
(** With a tolerance, every input point is in the hull or within the tolerance of the straight line through two of its vertices. *)
Theorem C47_tolerance : forall (vs : list RV) tol, 0 <= tol -> vs <> [] -> exists arr n first, convex_hull vs tol = Some (arr, n, first) /\
  let hull := firstn n arr in forall x, In x vs -> in_hull hull x \/
    exists u w q t, In u hull /\ In w hull /\ u <> w /\ q = vplus u (vscale t (vminus w u)) /\ dist x q <= tol.
Proof.
  intros vs tol Ht Hn. destruct (hull_ok tol vs Ht Hn) as (arr & n & first & C & L & B & HH & HF & N1). exists arr, n, first. split; [exact C|]. cbv zeta.
  intros x Hx. destruct (h_near _ _ _ HH x Hx) as [X|(u & w & Hu & Hw & NE & D)]; [left; exact X|right]. exists u, w. apply line_dist in D as (t & D); [|exact NE]. exists (vplus u (vscale t (vminus w u))), t. auto.
Qed.
(** When no three input points are in line every turn of the polygon is strict. *)
Theorem C47_strictly_convex : forall (vs : list RV), (forall a b c, In a vs -> In b vs -> In c vs -> turn a b c = 0 -> a = b \/ a = c \/ b = c) -> (exists a b c, In a vs /\ In b vs /\ In c vs /\ turn a b c <> 0) ->
  exists arr n first, convex_hull vs 0 = Some (arr, n, first) /\ (3 <= length (firstn n arr))%nat /\ (forall a b v, In (a, b) (ring (firstn n arr)) -> In v (firstn n arr) -> v = a \/ v = b \/ 0 < turn a b v) /\ forall x, In x vs -> region (firstn n arr) x.
Proof.
  intros vs G (a & b & c & Ha & Hb & Hc & Z). assert (Hn : vs <> []) by (intros ->; destruct Ha). destruct (hull_ok 0 vs (Rle_refl 0) Hn) as (arr & n & first & C & L & B & HH & HF & N1). exists arr, n, first. split; [exact C|].
  assert (REG : forall x, In x vs -> region (firstn n arr) x) by (intros x Hx u w Huw; now apply (h_all _ _ _ HH)).
  set (hull := firstn n arr) in *. assert (I := h_incl _ _ _ HH). assert (ND := h_nodup _ _ _ HH). assert (IH : forall x, In x vs -> in_hull hull x) by (intros x Hx; now apply (h_hull _ _ _ HH)).
  split; [|split; [|exact REG]].
  - destruct hull as [|p [|q [|r l]]]; [| | |cbn; lia]; exfalso.
    + specialize (IH a Ha). clear - IH. induction IH; auto.
    + apply Z. rewrite (hull1 p a), (hull1 p b), (hull1 p c) by auto. unfold turn. ring.
    + apply Z. destruct (hull2 p q a (IH a Ha)) as [s ->], (hull2 p q b (IH b Hb)) as [t ->], (hull2 p q c (IH c Hc)) as [v ->]. unfold turn, vplus, vscale, vminus. cbn [vx vy]. ring.
  - intros u w x Huw Hx. assert (EU : In u hull /\ In w hull) by (now apply ring_in). destruct EU as [Hu Hw]. destruct (h_conv _ _ _ HH u w x Huw Hx) as [P|P]; [auto|]. symmetry in P. destruct (G u w x (I u Hu) (I w Hw) (I x Hx) P) as [E|[E|E]]; auto.
    exfalso. subst w. clear - ND Huw Z IH Ha Hb Hc. destruct (ring_loop hull u Huw ND) as (p & E). rewrite E in IH. apply Z. rewrite (hull1 p a), (hull1 p b), (hull1 p c) by auto. unfold turn. ring.
Qed.
Definition kite : list RV := [mkV 0 0; mkV 2 0; mkV 1 2].
Example C47_nonvacuous : kite <> [] /\ (forall a b c, In a kite -> In b kite -> In c kite -> turn a b c = 0 -> a = b \/ a = c \/ b = c) /\ (exists a b c, In a kite /\ In b kite /\ In c kite /\ turn a b c <> 0).
Proof.
  split; [discriminate|]. split.
  - intros a b c [<-|[<-|[<-|[]]]] [<-|[<-|[<-|[]]]] [<-|[<-|[<-|[]]]]; auto; unfold turn; cbn [vx vy]; intros; exfalso; lra.
  - exists (mkV 0 0), (mkV 2 0), (mkV 1 2). cbn [In kite]. do 3 (split; [auto|]). unfold turn. cbn [vx vy]. lra.
Qed.
(** in binary64: the square's corners and its centre, in disorder *)
Definition fp (x y : Z) : Vec F := mkV (F_of_Z x) (F_of_Z y).
Definition same (p q : Vec F) : bool := Feqb (vx p) (vx q) && Feqb (vy p) (vy q).
Fixpoint sames (l m : list (Vec F)) : bool := match l, m with [], [] => true | p :: l, q :: m => same p q && sames l m | _, _ => false end.
Example C47_square : match convex_hull [fp 2 2; fp 1 1; fp 0 2; fp 2 0; fp 0 0] (F_of_Z 0) with Some (arr, n, first) => sames (firstn n arr) [fp 0 0; fp 2 0; fp 2 2; fp 0 2] && Nat.eqb first 4 | None => false end = true.
Proof. vm_compute. reflexivity. Qed.
Print Assumptions C47_returns.
Print Assumptions C47_strictly_convex.

(** ** C84: the tolerance is not a bound on the distance to the hull: (11,3) is dropped although it is 9 from the hull, with tolerance 1. *)
Ltac hdec := repeat match goal with
  | |- context [Rltb ?x ?y] => first [replace (Rltb x y) with true by (symmetry; apply Rltb_true; lra)|replace (Rltb x y) with false by (symmetry; apply Rltb_false; lra)]
  | |- context [Reqb ?x ?y] => first [replace (Reqb x y) with true by (symmetry; apply Reqb_true; lra)|replace (Reqb x y) with false by (symmetry; apply Reqb_false; lra)] end; cbn [andb orb negb].
Theorem C84_tolerance_refuted : exists (vs : list RV) tol arr n first x, 0 <= tol /\ convex_hull vs tol = Some (arr, n, first) /\ In x vs /\ forall q, in_hull (firstn n arr) q -> tol < dist x q.
Proof.
  exists [mkV 11 12; mkV 11 3; mkV 10 25], 1, [mkV 10 25; mkV 11 12; mkV 11 3], 2%nat, 2%nat, (mkV 11 3). split; [lra|]. split; [|split; [cbn; auto|]].
  - unfold convex_hull. cbn [loop_indexes]. unfold vlt. cbn [vx vy nltb neqb numR]. hdec. cbn [Nat.eqb aswap nth_error aset length Nat.sub]. 
    assert (E : 13 < sqrt 170) by (rewrite <- (sqrt_square 13) by lra; apply sqrt_lt_1; lra).
    Local Ltac two := cbn [reduce part_loop Nat.add nth_error Nat.sub aswap aset]; unfold partition, side_tol, side, vlen, vsub, vcross, vdot; cbn [part_loop]; unR; cbn [vx vy];
      replace ((11 - 10) * (11 - 10) + (12 - 25) * (12 - 25)) with 170 by ring; replace ((10 - 11) * (10 - 11) + (25 - 12) * (25 - 12)) with 170 by ring; hdec.
    do 6 two. reflexivity.
  - cbn [firstn]. intros q Hq. assert (Y : 12 <= vy q).
    { induction Hq as [v [<-|[<-|[]]]|p q x _ IHp _ IHq (t & Ht & ->)]; cbn [vy]; try lra. unfold seg_point. cbn [vy]. pose proof (Rmult_le_pos t (vy q - 12) ltac:(lra) ltac:(lra)). pose proof (Rmult_le_pos (1 - t) (vy p - 12) ltac:(lra) ltac:(lra)). lra. }
    apply Rlt_le_trans with 9; [lra|]. destruct (dist_coord (mkV 11 3) q _ (Rle_refl _)) as [_ DC]. cbn [vx vy] in DC. apply Rle_trans with (vy q - 3); [lra|]. apply abs_bounds in DC. lra.
Qed.
(** ** C85: a hull with tolerance 0 may keep vertices in the middle of an edge: three points at the same, largest, distance from the first chord. *)
Theorem C85_collinear_refuted : exists (vs : list RV) arr n first a b c, convex_hull vs 0 = Some (arr, n, first) /\ (forall x, In x [a; b; c] -> In x (firstn n arr)) /\ a <> b /\ b <> c /\ on_segment a c b.
Proof.
  exists [mkV 0 0; mkV 4 0; mkV 2 (-1); mkV 1 (-1); mkV 3 (-1)], [mkV 0 0; mkV 1 (-1); mkV 2 (-1); mkV 3 (-1); mkV 4 0], 5%nat, 0%nat, (mkV 1 (-1)), (mkV 2 (-1)), (mkV 3 (-1)).
  split; [|split; [cbn; tauto|split; [intros [= E]; lra|split; [intros [= E]; lra|exists (1/2); split; [lra|apply vec_eq; unfold seg_point; cbn [vx vy]; lra]]]]].
  unfold convex_hull. cbn [loop_indexes]. unfold vlt. cbn [vx vy nltb neqb numR]. hdec. cbn [Nat.eqb aswap nth_error aset length Nat.sub].
  Local Ltac one := cbn [reduce part_loop Nat.add nth_error Nat.sub aswap aset]; unfold partition, side_tol, side, vsub, vcross; cbn [part_loop]; unR; cbn [vx vy]; rewrite ?Rmult_0_l; hdec.
  do 12 one. reflexivity.
Qed.
