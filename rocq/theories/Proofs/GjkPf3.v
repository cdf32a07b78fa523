(** The answer of GJK/EPA (reals): what each way out of the two loops shows. *)
From Coq Require Import Reals ZArith NArith Bool List Lra Lia.
From Verif Require Import Num Spec SpecShapes SpecCollide.
From Verif.Model Require Import Vector BB Transform Shapes Collision.
From Verif.Proofs Require Import RTac Geom ShapePf ShapePf2 GjkPf GjkPf2.
Import ListNotations.
Local Open Scope R_scope.

Section Pair.
Variables A B : Shape R.
Hypothesis RA : regular A.
Hypothesis RB : regular B.
Notation good := (good A B).
Definition ans (pts : CPoints R) : Prop := answer A B (cp_a pts) (cp_b pts) (cp_n pts) (cp_d pts).
Lemma differs_ab v : good v -> differs A B (mk_ab v).
Proof. intros G. destruct (good_in A B RA RB v G). destruct G as (_ & _ & E). exists (mk_a v), (mk_b v). auto. Qed.
Lemma inner_sym u v : inner u v = inner v u. Proof. unfold inner. ring. Qed.

(** the edge's normal is an axis when all differences are on its far side *)
Lemma edge_axis v0 v1 a b : good v0 -> good v1 -> core A a -> core B b -> (exists s, vminus b a = seg_point (mk_ab v0) (mk_ab v1) s) ->
  (forall x y, core A x -> core B y -> cross (vminus (mk_ab v1) (mk_ab v0)) (vminus y x) <= - cross (mk_ab v0) (mk_ab v1)) ->
  axis (core A) (core B) a b (edge_n (mk_ab v0) (mk_ab v1)) (edge_k (mk_ab v0) (mk_ab v1) * cross (mk_ab v0) (mk_ab v1)).
Proof.
  intros G0 G1 Ha Hb (s & Es) Hm. pose proof (edge_k_pos (mk_ab v0) (mk_ab v1)) as Kp. pose proof tol_pos. split; [apply edge_norm|]. split.
  - intros x y Hx Hy. rewrite edge_inner. specialize (Hm x y Hx Hy).
    assert (0 <= edge_k (mk_ab v0) (mk_ab v1) * (- cross (mk_ab v0) (mk_ab v1) - cross (vminus (mk_ab v1) (mk_ab v0)) (vminus y x))) by (apply Rmult_le_pos; lra). lra.
  - rewrite Es, edge_inner. replace (cross (vminus (mk_ab v1) (mk_ab v0)) (seg_point (mk_ab v0) (mk_ab v1) s)) with (- cross (mk_ab v0) (mk_ab v1)) by (unfold cross, vminus, seg_point; cbn [vx vy]; ring).
    match goal with |- Rabs ?x <= _ => replace x with 0 by ring end. rewrite Rabs_R0. lra.
Qed.
Lemma dist_uw (u w : RV) : dist u w = norm (vminus w u). Proof. apply norm2_vminus. Qed.
Lemma norm_pos u : u <> mkV 0 0 -> 0 < norm u.
Proof. intros H. unfold norm. apply sqrt_lt_R0. now apply norm2_pos. Qed.
Lemma sq_le a b : 0 <= a -> 0 <= b -> a * a <= b * b -> a <= b.
Proof. intros. destruct (Rle_lt_dec a b); auto. assert (b * b < a * a) by (apply Rmult_le_0_lt_compat; lra). lra. Qed.

Lemma gjk_exit v0 v1 n : good v0 -> good v1 -> mk_ab v0 <> mk_ab v1 -> 0 <= cross (mk_ab v0) (mk_ab v1) ->
  (let t := closest_t (mk_ab v0) (mk_ab v1) in n = if (- none_ <? t)%num && (t <? none_)%num then vperp (vsub (mk_ab v1) (mk_ab v0)) else vneg (vlerp_t (mk_ab v0) (mk_ab v1) t)) ->
  (forall x y, core A x -> core B y -> inner (vminus y x) n <= Rmax (inner (mk_ab v0) n) (inner (mk_ab v1) n)) ->
  ans (closest_points v0 v1).
Proof.
  intros G0 G1 Hne Hc Hn Hm. cbv zeta in Hn. destruct (closest_sep A B RA RB v0 v1 G0 G1) as (Ca & Cb & s & Hs & Es & Ep).
  pose proof (cp_unfold v0 v1) as HC. pose proof (closest_t_cases (mk_ab v0) (mk_ab v1) Hne) as HT. cbv zeta in HC, HT. rewrite Es in HC, HT.
  set (u := mk_ab v0) in *. set (w := mk_ab v1) in *. set (t := closest_t u w) in *. rewrite lerp_t_seg, Es in Hn. set (q := seg_point u w s) in *. unR.
  pose proof (edge_k_pos u w) as Kp. pose proof tol_pos as Tp.
  set (a := cp_a (closest_points v0 v1)) in *. set (b := cp_b (closest_points v0 v1)) in *.
  assert (Dab : dist a b = norm q) by (rewrite dist_uw, Ep; reflexivity).
  assert (Dpos : 0 < norm (vminus w u)). { apply norm_pos. intros E. apply Hne. unfold vminus in E. injection E as E1 E2. apply vec_eq; unfold u, w in *; lra. }
  change (answer A B a b (cp_n (closest_points v0 v1)) (cp_d (closest_points v0 v1))).
  split; [exact Ca|]. split; [exact Cb|]. right.
  destruct HT as [[Ht Hq]|(Ht & Hq0 & Hq1)].
  - (* the foot is inside the edge *)
    assert (En : n = vperp (vsub w u)).
    { rewrite Hn. destruct (Rltb_spec (- (1)) t); [|lra]. destruct (Rltb_spec t 1); [reflexivity|lra]. }
    destruct HC as [(_ & En' & Ed)|(_ & [E|E] & _)]; [|lra|lra].
    assert (Hm' : forall x y, core A x -> core B y -> cross (vminus w u) (vminus y x) <= - cross u w).
    { intros x y Hx Hy. specialize (Hm x y Hx Hy). rewrite En in Hm.
      replace (inner u (vperp (vsub w u))) with (- cross u w) in Hm by (unfold inner, cross, vperp, vsub; unR; cbn [vx vy]; ring).
      replace (inner w (vperp (vsub w u))) with (- cross u w) in Hm by (unfold inner, cross, vperp, vsub; unR; cbn [vx vy]; ring).
      rewrite Rmax_left in Hm by lra. replace (cross (vminus w u) (vminus y x)) with (inner (vminus y x) (vperp (vsub w u))) by (unfold inner, cross, vperp, vminus, vsub; unR; cbn [vx vy]; ring). exact Hm. }
    pose proof (edge_axis v0 v1 a b G0 G1 Ca Cb (ex_intro (fun s => vminus b a = seg_point (mk_ab v0) (mk_ab v1) s) s Ep) Hm') as AX. fold u w in AX. rewrite En', Ed.
    assert (Ecq : cross (vminus w u) q = - cross u w) by (unfold q, cross, vminus, seg_point; cbn [vx vy]; ring).
    pose proof (lagrange (vminus w u) q) as L. rewrite Hq, Ecq in L.
    assert (EC : cross u w = norm (vminus w u) * norm q).
    { assert (X : cross u w * cross u w = (norm (vminus w u) * norm q) * (norm (vminus w u) * norm q)).
      { rewrite <- !norm_sq in L. lra. }
      pose proof (norm_nonneg q). assert (0 <= norm (vminus w u) * norm q) by (apply Rmult_le_pos; lra). apply Rle_antisym; apply sq_le; lra. }
    assert (Ek : edge_k u w * cross u w = norm q * (norm (vminus w u) / (norm (vminus w u) + tol))) by (rewrite EC; unfold edge_k; field; lra).
    assert (Rk : 0 < norm (vminus w u) / (norm (vminus w u) + tol) <= 1).
    { split; [apply Rdiv_lt_0_compat; lra|]. apply Rmult_le_reg_r with (norm (vminus w u) + tol); [lra|]. field_simplify; lra. }
    pose proof (norm_nonneg q) as Nq. split; [|split; [|split]].
    + intros x y Hx Hy. rewrite Dab, dist_uw. pose proof (lagrange (vminus w u) (vminus y x)) as L2. specialize (Hm' x y Hx Hy).
      assert (X : cross u w * cross u w <= cross (vminus w u) (vminus y x) * cross (vminus w u) (vminus y x)).
      { replace (cross (vminus w u) (vminus y x) * cross (vminus w u) (vminus y x)) with ((- cross (vminus w u) (vminus y x)) * (- cross (vminus w u) (vminus y x))) by ring. apply Rmult_le_compat; lra. }
      pose proof (sq_pos (inner (vminus w u) (vminus y x))).
      apply norm_le. apply Rmult_le_reg_l with (norm2 (vminus w u)); [rewrite <- norm_sq; apply Rmult_lt_0_compat; assumption|]. lra.
    + rewrite Dab, Ek. split; [apply Rmult_le_pos; lra|]. rewrite <- (Rmult_1_r (norm q)) at 2. apply Rmult_le_compat_l; lra.
    + intros _. exact AX.
    + exists u, w. split; [now apply differs_ab|]. split; [now apply differs_ab|]. split; [exact Hne|]. left. rewrite Dab, Ek, (dist_uw u w).
      right. field. lra.
  - (* the nearest point is an end of the edge *)
    assert (En : n = vneg q).
    { rewrite Hn. destruct (Rltb_spec (- (1)) t), (Rltb_spec t 1); cbn [andb]; auto; destruct Ht as [[E _]|[E _]]; lra. }
    assert (Hm' : forall x y, core A x -> core B y -> inner q q <= inner (vminus y x) q).
    { intros x y Hx Hy. specialize (Hm x y Hx Hy). rewrite En in Hm.
      replace (inner u (vneg q)) with (- inner u q) in Hm by (unfold inner, vneg; unR; cbn [vx vy]; ring).
      replace (inner w (vneg q)) with (- inner w q) in Hm by (unfold inner, vneg; unR; cbn [vx vy]; ring).
      replace (inner (vminus y x) (vneg q)) with (- inner (vminus y x) q) in Hm by (unfold inner, vneg; unR; cbn [vx vy]; ring).
      unfold Rmax in Hm. destruct (Rle_dec _ _); lra. }
    assert (NR : nearest (core A) (core B) a b).
    { intros x y Hx Hy. rewrite Dab, dist_uw. specialize (Hm' x y Hx Hy). pose proof (cauchy_schwarz (vminus y x) q) as CS. apply abs_bounds in CS.
      pose proof (norm_sq q) as Nq. change (norm2 q) with (inner q q) in Nq. pose proof (norm_nonneg q). pose proof (norm_nonneg (vminus y x)).
      destruct (Req_dec (norm q) 0) as [E|E]; [lra|]. apply Rmult_le_reg_r with (norm q); lra. }
    split; [exact NR|]. pose proof (norm_nonneg q) as Nq.
    destruct HC as [(Hd & En' & Ed)|(Hd & _ & En' & Ed)]; rewrite En', Ed.
    + destruct Hd as [Hd|Hd]; [|destruct Ht as [[E _]|[E _]]; lra].
      assert (Z : cross u w = 0).
      { apply Rle_antisym; auto. apply Rmult_le_reg_l with (edge_k u w); [exact Kp|]. lra. }
      assert (Z2 : edge_k u w * cross u w = 0) by (rewrite Z; ring). rewrite Z2.
      split; [rewrite Dab; lra|]. split; [lra|]. exists u, w. split; [now apply differs_ab|]. split; [now apply differs_ab|]. split; [exact Hne|]. right. split; auto.
      unfold turn. cbn [vx vy]. unfold cross in Z. lra.
    + split; [rewrite Dab; lra|]. split.
      * intros Hp. assert (F : norm q * norm q = inner q q) by apply norm_sq.
        assert (Kq : 0 < 1 / (norm q + tol)) by (apply Rdiv_lt_0_compat; lra).
        assert (Eq2 : norm q * norm q * (1 / (norm q + tol)) = norm q - norm q * (tol * (1 / (norm q + tol)))) by (field; lra).
        assert (Bd : 0 <= norm q * (tol * (1 / (norm q + tol))) <= tol).
        { split; [apply Rmult_le_pos; [lra|]; apply Rmult_le_pos; lra|]. apply Rmult_le_reg_r with (norm q + tol); [lra|]. field_simplify; [|lra].
          assert (0 < tol * tol) by (apply Rmult_lt_0_compat; lra). rewrite ?Rplus_0_r. replace (tol ^ 2) with (tol * tol) by ring. lra. }
        split; [|split].
        -- rewrite norm_scale by lra. apply Rmult_le_reg_r with (norm q + tol); [lra|]. field_simplify; lra.
        -- intros x y Hx Hy. specialize (Hm' x y Hx Hy).
           replace (inner (vscale (1 / (norm q + tol)) q) (vminus y x)) with (1 / (norm q + tol) * inner (vminus y x) q) by (unfold inner, vscale; cbn [vx vy]; ring).
           assert (1 / (norm q + tol) * inner q q <= 1 / (norm q + tol) * inner (vminus y x) q) by (apply Rmult_le_compat_l; lra). rewrite <- F in H. lra.
        -- rewrite Ep. fold q. replace (inner (vscale (1 / (norm q + tol)) q) q) with (inner q q * (1 / (norm q + tol))) by (unfold inner, vscale; cbn [vx vy]; ring).
           rewrite <- F, Eq2. apply abs_bounds. lra.
      * exists u, w. split; [now apply differs_ab|]. split; [now apply differs_ab|]. split; [exact Hne|]. left. rewrite Dab.
        pose proof (norm_nonneg (vminus w u)). assert (0 <= norm q * tol) by (apply Rmult_le_pos; lra). rewrite (dist_uw u w). lra.
Qed.

(** ** EPA *)
Hypothesis OV : overlap (core A) (core B).
Lemma epa_exit v0 v1 : good v0 -> good v1 ->
  (forall x y, core A x -> core B y -> inner (vminus y x) (vperp (vsub (mk_ab v1) (mk_ab v0))) <= inner (mk_ab v0) (vperp (vsub (mk_ab v1) (mk_ab v0)))) ->
  ans (closest_points v0 v1).
Proof.
  intros G0 G1 Hm. destruct (closest_sep A B RA RB v0 v1 G0 G1) as (Ca & Cb & s & Hs & Es & Ep).
  pose proof (cp_unfold v0 v1) as HC. cbv zeta in HC. rewrite Es in HC.
  assert (Hm' : forall x y, core A x -> core B y -> cross (vminus (mk_ab v1) (mk_ab v0)) (vminus y x) <= - cross (mk_ab v0) (mk_ab v1)).
  { intros x y Hx Hy. specialize (Hm x y Hx Hy). unfold inner, cross, vperp, vsub, vminus in *. unR. cbn [vx vy] in *. lra. }
  pose proof (edge_axis v0 v1 _ _ G0 G1 Ca Cb (ex_intro (fun s => vminus _ _ = seg_point (mk_ab v0) (mk_ab v1) s) s Ep) Hm') as AX.
  assert (Hc : cross (mk_ab v0) (mk_ab v1) <= 0).
  { destruct OV as (z & Hz1 & Hz2). specialize (Hm' z z Hz1 Hz2). unfold cross, vminus in *. cbn [vx vy] in *. lra. }
  pose proof (edge_k_pos (mk_ab v0) (mk_ab v1)) as Kp.
  assert (Hd : edge_k (mk_ab v0) (mk_ab v1) * cross (mk_ab v0) (mk_ab v1) <= 0).
  { assert (0 <= edge_k (mk_ab v0) (mk_ab v1) * (- cross (mk_ab v0) (mk_ab v1))) by (apply Rmult_le_pos; lra). lra. }
  destruct HC as [(_ & En & Ed)|(Hd' & _)]; [|lra].
  unfold ans. rewrite En, Ed. split; [exact Ca|]. split; [exact Cb|]. left. auto.
Qed.
Lemma mini_lt (hull : list (Mink R)) d0 : hull <> [] -> (epa_min hull d0 < length hull)%nat.
Proof.
  intros Hn. unfold epa_min.
  assert (Hp : forall e, In e (hull_pairs hull d0) -> (fst e < length hull)%nat).
  { intros [i e] Hi. cbn. unfold hull_pairs in Hi. apply in_combine_l in Hi as [<-|Hi]; [destruct hull; [congruence|cbn; lia]|]. apply in_seq in Hi. lia. }
  assert (H0 : (snd (ninf : R, 0%nat) < length hull)%nat) by (destruct hull; [congruence|cbn; lia]).
  revert H0. generalize (ninf : R, 0%nat). induction (hull_pairs hull d0) as [|e l IH]; intros st H0; cbn [fold_left]; auto.
  apply IH; [intros; apply Hp; now right|]. destruct (nltb _ _); cbn; auto. apply Hp. now left.
Qed.
Lemma rebuild_forall (P : Mink R -> Prop) p : forall rot acc, (forall v, In v acc -> P v) -> (forall v, In v rot -> P v) -> forall v, In v (epa_rebuild p acc rot) -> P v.
Proof.
  induction rot as [|h rot IH]; intros acc Ha Hr v; cbn [epa_rebuild].
  - intros Hv. apply in_rev in Hv. auto.
  - apply IH; [|intros; apply Hr; now right]. intros x. destruct (pointgreater _ _ _); [intros [<-|Hx]; auto; apply Hr; now left|auto].
Qed.
Lemma rebuild_in (p q : Mink R) : forall rot acc, In q acc -> In q (epa_rebuild p acc rot).
Proof. induction rot as [|h rot IH]; intros acc Ha; cbn [epa_rebuild]; [now apply -> in_rev|]. apply IH. destruct (pointgreater _ _ _); [now right|auto]. Qed.
Lemma in_firstn {X} n (l : list X) x : In x (firstn n l) -> In x l.
Proof. intros Hx. rewrite <- (firstn_skipn n l). apply in_or_app. now left. Qed.
Lemma in_skipn {X} n (l : list X) x : In x (skipn n l) -> In x l.
Proof. intros Hx. rewrite <- (firstn_skipn n l). apply in_or_app. now right. Qed.
Lemma epa_ans : forall fuel hull it pts, hull <> [] -> (forall v, In v hull -> good v) -> epa_recurse fuel A B hull it = Some (pts, true) -> ans pts.
Proof.
  induction fuel as [|fuel IH]; intros hull it pts Hn Hg; [discriminate|]. cbn [epa_recurse].
  set (d0 := mkMk vzero vzero vzero 0). set (mini := epa_min hull d0). set (rot := skipn (S mini) hull ++ firstn (S mini) hull).
  assert (Hmi : (mini < length hull)%nat) by now apply mini_lt.
  assert (Hr : forall v, In v rot -> In v hull) by (intros v [Hv|Hv]%in_app_or; [eapply in_skipn|eapply in_firstn]; exact Hv).
  assert (Hrn : rot <> []). { intros E. apply (f_equal (@length _)) in E. unfold rot in E. rewrite app_length, firstn_length_le in E by lia. cbn in E. lia. }
  set (v0 := nth mini hull d0). set (v1 := hd d0 rot).
  assert (G0 : good v0) by (apply Hg, nth_In; exact Hmi).
  assert (G1 : good v1) by (apply Hg, Hr; unfold v1; destruct rot; [congruence|now left]).
  set (p := support A B (vperp (vsub (mk_ab v1) (mk_ab v0)))).
  assert (Gp : good p) by now apply support_good.
  match goal with |- (if ?x && _ then _ else _) = _ -> _ => destruct x eqn:E end; cbn [andb negb].
  - destruct (it <? maxEpa)%nat; [|discriminate]. apply IH.
    + intros E2. pose proof (rebuild_in p p rot [p] (or_introl eq_refl)) as X. rewrite E2 in X. destruct X.
    + intros v. apply rebuild_forall; [intros w [<-|[]]; exact Gp|intros w Hw; apply Hg, Hr, Hw].
  - intros [= <-]. apply epa_exit; auto. intros x y Hx Hy.
    eapply Rle_trans; [apply (support_extreme A B RA RB); auto; now apply (perp_big A B)|]. fold p.
    apply andb_false_iff in E as [E|E].
    + apply negb_false_iff, orb_prop in E as [E|E]; apply N.eqb_eq in E; apply (same_id A B) in E; auto; rewrite E; [lra|].
      unfold inner, vperp, vsub. unR. cbn [vx vy]. lra.
    + rewrite pg_turn in E. apply Rltb_false in E. unfold turn, inner, vperp, vsub in *. unR. cbn [vx vy]. lra.
Qed.
End Pair.

(** a triangle of differences around the origin shows a common point *)
Lemma hull_three vs a b c x y z : in_hull vs a -> in_hull vs b -> in_hull vs c -> 0 < x -> 0 < y -> 0 <= z ->
  in_hull vs (mkV ((x * vx a + y * vx b + z * vx c) / (x + y + z)) ((x * vy a + y * vy b + z * vy c) / (x + y + z))).
Proof.
  intros Ha Hb Hc X Y Z. eapply hull_between with (p := seg_point a b (y / (x + y))) (q := c).
  - eapply hull_between; [exact Ha|exact Hb|]. exists (y / (x + y)). split; auto. split; [apply Rlt_le, Rdiv_lt_0_compat; lra|]. apply Rmult_le_reg_r with (x + y); [lra|]. field_simplify; lra.
  - exact Hc.
  - exists (z / (x + y + z)). split.
    + split; [apply Rmult_le_reg_r with (x + y + z); [lra|]; field_simplify; lra|]. apply Rmult_le_reg_r with (x + y + z); [lra|]. field_simplify; lra.
    + apply vec_eq; unfold seg_point; cbn [vx vy]; field; lra.
Qed.
Lemma triangle_overlap A B v0 v1 p : regular A -> regular B -> good A B v0 -> good A B v1 -> good A B p ->
  0 <= cross (mk_ab v0) (mk_ab v1) -> 0 < cross (mk_ab p) (mk_ab v0) -> 0 < cross (mk_ab v1) (mk_ab p) -> overlap (core A) (core B).
Proof.
  intros RA RB G0 G1 Gp H1 H2 H3. destruct (good_core A B RA RB v0 G0) as [A0 B0], (good_core A B RA RB v1 G1) as [A1 B1], (good_core A B RA RB p Gp) as [Ap Bp].
  pose proof (hull_three _ _ _ _ _ _ _ A0 A1 Ap H3 H2 H1) as XA. pose proof (hull_three _ _ _ _ _ _ _ B0 B1 Bp H3 H2 H1) as XB.
  destruct G0 as (_ & _ & E0), G1 as (_ & _ & E1), Gp as (_ & _ & Ep).
  set (x := cross (mk_ab v1) (mk_ab p)) in *. set (y := cross (mk_ab p) (mk_ab v0)) in *. set (z := cross (mk_ab v0) (mk_ab v1)) in *.
  eexists. split; [exact XA|]. match goal with |- core B ?g => match type of XB with in_hull _ ?h => replace g with h; [exact XB|] end end.
  assert (I : x * vx (mk_ab v0) + y * vx (mk_ab v1) + z * vx (mk_ab p) = 0 /\ x * vy (mk_ab v0) + y * vy (mk_ab v1) + z * vy (mk_ab p) = 0) by (unfold x, y, z, cross; split; ring).
  destruct I as [I1 I2]. rewrite E0, E1, Ep in I1, I2. unfold vminus in I1, I2. cbn [vx vy] in I1, I2.
  assert (0 < x + y + z) by lra. apply vec_eq; cbn [vx vy]; apply (f_equal2 Rdiv); lra.
Qed.

(** ** GJK *)
Lemma gjk_ans A B : regular A -> regular B -> forall fuel v0 v1 it pts, good A B v0 -> good A B v1 -> mk_ab v0 <> mk_ab v1 -> gjk_recurse fuel A B v0 v1 it = Some (pts, true) -> ans A B pts.
Proof.
  intros RA RB. induction fuel as [|fuel IH]; intros v0 v1 it pts G0 G1 Hne; [discriminate|]. cbn [gjk_recurse].
  destruct (maxGjk <? it)%nat; [discriminate|]. rewrite !pg_iff.
  destruct (Rltb_spec 0 (cross (mk_ab v1) (mk_ab v0))) as [Hf|Hf]; [apply IH; auto|].
  assert (Hc : 0 <= cross (mk_ab v0) (mk_ab v1)) by (unfold cross in *; lra).
  match goal with |- context [support A B ?n0] => set (n := n0) end. set (p := support A B n).
  assert (Gp : good A B p) by now apply support_good.
  assert (Bn : big n).
  { unfold n. destruct (_ && _); [now apply (perp_big A B)|]. rewrite lerp_t_seg. apply (seg_big A B); auto. pose proof (closest_t_range (mk_ab v0) (mk_ab v1)). lra. }
  match goal with |- (if ?x then _ else _) = _ -> _ => destruct x eqn:E1 end.
  - apply andb_prop in E1 as [E1 E2]. apply Rltb_true in E1. apply Rltb_true in E2. unfold epa. apply epa_ans; auto; [|discriminate|].
    + eapply triangle_overlap with (v0 := v0) (v1 := v1) (p := p); auto.
    + intros v [<-|[<-|[<-|[]]]]; auto.
  - destruct (checkaxis (mk_ab v0) (mk_ab v1) (mk_ab p) n) eqn:E2.
    + intros [= <-]. apply (gjk_exit A B RA RB) with (n := n); auto. intros x y Hx Hy.
      eapply Rle_trans; [apply (support_extreme A B RA RB); auto|]. unfold checkaxis in E2. unR. vdi. apply Rleb_true in E2. exact E2.
    + assert (N : mk_ab p <> mk_ab v0 /\ mk_ab p <> mk_ab v1).
      { unfold checkaxis in E2. unR. vdi. apply Rleb_false in E2. split; intros E; rewrite E in E2; unfold Rmax in E2; destruct (Rle_dec _ _); lra. }
      clearbody p. destruct N as [N1 N2]. match goal with |- (if ?x then _ else _) = _ -> _ => destruct x end; apply IH; auto.
Qed.
Lemma start_good (a b : CShape R) id : regular (cs_class a) -> regular (cs_class b) -> good (cs_class a) (cs_class b) (fst (gjk_start a b id)) /\ good (cs_class a) (cs_class b) (snd (gjk_start a b id)).
Proof.
  intros RA RB. unfold gjk_start. destruct (negb _); cbn [fst snd].
  - destruct RA as (A1 & A2 & _), RB as (B1 & B2 & _). split; apply mink_good; apply shape_point_named; auto; apply land_lt.
  - split; now apply support_good.
Qed.
Lemma gjk_answer (a b : CShape R) id pts : regular (cs_class a) -> regular (cs_class b) -> mk_ab (fst (gjk_start a b id)) <> mk_ab (snd (gjk_start a b id)) ->
  gjk a b id = Some (pts, true) -> ans (cs_class a) (cs_class b) pts.
Proof.
  intros RA RB. unfold gjk. destruct (start_good a b id RA RB) as [G0 G1]. destruct (gjk_start a b id) as [v0 v1]. cbn [fst snd] in *. intros Hne. now apply gjk_ans.
Qed.
