(** EPA finds the least penetration (reals): the polygon it grows always surrounds the origin. *)
From Coq Require Import Reals ZArith NArith Bool List Lra Lia.
From Verif Require Import Num Spec SpecShapes SpecCollide SpecDepth.
From Verif.Model Require Import Vector BB Transform Shapes Collision.
From Verif.Proofs Require Import RTac Geom ShapePf ShapePf2 GjkPf GjkPf2 GjkPf3.
Import ListNotations.
Local Open Scope R_scope.

(** ** consecutive pairs of a closed list *)
Section Cyc.
Context {X : Type}.
Fixpoint lin (x : X) (l : list X) : list (X * X) := match l with [] => [] | y :: r => (x, y) :: lin y r end.
Definition cyc (l : list X) : list (X * X) := match l with [] => [] | x :: t => lin x (t ++ [x]) end.
Lemma lin_snoc x l y : lin x (l ++ [y]) = lin x l ++ [(last l x, y)].
Proof. revert x. induction l as [|z l IH]; intros x; [reflexivity|]. cbn [lin app]. rewrite IH. cbn [app]. do 2 f_equal. destruct l as [|w l]; [reflexivity|]. cbn. f_equal. f_equal. clear. revert w. induction l as [|u l IH]; intros w; [reflexivity|]. cbn in *. destruct l; auto. Qed.
Lemma cyc_cons x t : cyc (x :: t) = lin x t ++ [(last t x, x)].
Proof. unfold cyc. apply lin_snoc. Qed.
Lemma rot1 e x l : In e (cyc (x :: l)) <-> In e (cyc (l ++ [x])).
Proof.
  destruct l as [|y l]; [reflexivity|]. rewrite cyc_cons. cbn [app]. rewrite cyc_cons, lin_snoc. cbn [lin]. rewrite last_last.
  replace (last (y :: l) x) with (last l y). 2:{ clear. revert y. induction l as [|u l IH]; intros y; [reflexivity|]. cbn in *. destruct l; auto. }
  rewrite !in_app_iff. cbn [In app]. tauto.
Qed.
Lemma rots e l1 : forall l2, In e (cyc (l1 ++ l2)) <-> In e (cyc (l2 ++ l1)).
Proof.
  induction l1 as [|x l1 IH]; intros l2; [now rewrite app_nil_r|]. cbn [app]. rewrite rot1, <- app_assoc, IH, <- app_assoc. reflexivity.
Qed.
End Cyc.

(** ** cones *)
Definition cone (a b u : RV) : Prop := exists s t, 0 <= s /\ 0 <= t /\ u = vplus (vscale s a) (vscale t b).
Lemma cone_in a b u : cross a b < 0 -> cross a u <= 0 -> cross u b <= 0 -> cone a b u.
Proof.
  intros H1 H2 H3. exists (cross u b / cross a b), (cross a u / cross a b).
  assert (D : forall z, z <= 0 -> 0 <= z / cross a b).
  { intros z Hz. replace (z / cross a b) with ((- z) / (- cross a b)) by (field; lra). apply Rmult_le_pos; [lra|]. left. apply Rinv_0_lt_compat. lra. }
  split; [auto|]. split; [auto|]. unfold cross in *. apply vec_eq; unfold vplus, vscale; cbn [vx vy]; field; lra.
Qed.
Lemma turn_cross a b c : turn a b c = cross a b + cross b c + cross c a.
Proof. unfold turn, cross. ring. Qed.
(** dropping [h1] between [h0] and [h2] *)
Lemma cone_drop h0 h1 h2 u : cross h0 h1 < 0 -> cross h1 h2 < 0 -> 0 <= turn h0 h1 h2 -> cone h0 h1 u \/ cone h1 h2 u -> cone h0 h2 u.
Proof.
  intros H1 H2 H3 Hu. rewrite turn_cross in H3. set (x := cross h2 h0) in *. assert (0 < x) by lra.
  assert (E : h1 = vplus (vscale (- cross h1 h2 / x) h0) (vscale (- cross h0 h1 / x) h2)).
  { unfold x, cross in *. apply vec_eq; unfold vplus, vscale; cbn [vx vy]; field; lra. }
  set (a := - cross h1 h2 / x) in *. set (b := - cross h0 h1 / x) in *.
  assert (0 <= a) by (apply Rmult_le_pos; [lra|]; left; apply Rinv_0_lt_compat; lra).
  assert (0 <= b) by (apply Rmult_le_pos; [lra|]; left; apply Rinv_0_lt_compat; lra).
  clearbody a b. subst h1. destruct Hu as [(s & t & Hs & Ht & ->)|(s & t & Hs & Ht & ->)].
  - exists (s + t * a), (t * b). assert (0 <= t * a) by now apply Rmult_le_pos. assert (0 <= t * b) by now apply Rmult_le_pos.
    split; [lra|]. split; [lra|]. apply vec_eq; unfold vplus, vscale; cbn [vx vy]; ring.
  - exists (s * a), (s * b + t). assert (0 <= s * a) by now apply Rmult_le_pos. assert (0 <= s * b) by now apply Rmult_le_pos.
    split; [lra|]. split; [lra|]. apply vec_eq; unfold vplus, vscale; cbn [vx vy]; ring.
Qed.
(** putting [p] between [a] and [b] *)
Lemma cone_insert a p b u : cross a p < 0 -> cross p b < 0 -> cross a b < 0 -> cone a b u -> cone a p u \/ cone p b u.
Proof.
  intros H1 H2 H3 (s & t & Hs & Ht & E).
  destruct (Rle_dec (cross u p) 0) as [Hc|Hc].
  - left. apply cone_in; auto. subst u. unfold cross, vplus, vscale in *. cbn [vx vy].
    replace (vx a * (s * vy a + t * vy b) - vy a * (s * vx a + t * vx b)) with (t * (vx a * vy b - vy a * vx b)) by ring.
    assert (0 <= t * - (vx a * vy b - vy a * vx b)) by (apply Rmult_le_pos; lra). lra.
  - right. apply cone_in; auto; [unfold cross in *; lra|]. subst u. unfold cross, vplus, vscale in *. cbn [vx vy].
    replace ((s * vx a + t * vx b) * vy b - (s * vy a + t * vy b) * vx b) with (s * (vx a * vy b - vy a * vx b)) by ring.
    assert (0 <= s * - (vx a * vy b - vy a * vx b)) by (apply Rmult_le_pos; lra). lra.
Qed.

(** ** rings around the origin *)
Definition ab (e : Mink R * Mink R) : RV * RV := (mk_ab (fst e), mk_ab (snd e)).
Record Around (l : list (Mink R)) : Prop := {
  ar_cw : forall e, In e (cyc l) -> cross (mk_ab (fst e)) (mk_ab (snd e)) < 0;
  ar_cover : forall u, exists e, In e (cyc l) /\ cone (mk_ab (fst e)) (mk_ab (snd e)) u }.
Lemma around_perm l l' : (forall e, In e (cyc l) <-> In e (cyc l')) -> Around l -> Around l'.
Proof.
  intros Hp [C V]. constructor.
  - intros e He. apply C, Hp, He.
  - intros u. destruct (V u) as (e & He & Hc). exists e. split; [now apply Hp|exact Hc].
Qed.
Lemma around_rot l1 l2 : Around (l1 ++ l2) -> Around (l2 ++ l1).
Proof. apply around_perm. intros e. apply rots. Qed.
Lemma around_drop h1 r : r <> [] -> Around (h1 :: r) -> (forall y z, hd_error r = Some y -> last r h1 = z -> 0 <= turn (mk_ab z) (mk_ab h1) (mk_ab y)) -> Around r.
Proof.
  intros Hr [C V] Ht. destruct r as [|y t]; [congruence|]. set (z := last t y).
  assert (Ez : last (y :: t) h1 = z). { unfold z. clear. revert y. induction t as [|u l IH]; intros y; [reflexivity|]. cbn in *. destruct l; auto. }
  specialize (Ht y z eq_refl Ez). rewrite cyc_cons in C, V. rewrite Ez in C, V. cbn [lin app] in C, V.
  assert (C1 : cross (mk_ab h1) (mk_ab y) < 0) by (apply (C (h1, y)); now left).
  assert (C2 : cross (mk_ab z) (mk_ab h1) < 0) by (apply (C (z, h1)); right; apply in_or_app; right; now left).
  constructor.
  - rewrite cyc_cons. fold z. intros e [He|[<-|[]]]%in_app_or; [apply C; right; apply in_or_app; now left|].
    cbn [fst snd]. rewrite turn_cross in Ht. unfold cross in *. lra.
  - intros u. rewrite cyc_cons. fold z. destruct (V u) as (e & [<-|[He|[<-|[]]]%in_app_or] & Hc).
    + exists (z, y). split; [apply in_or_app; right; now left|]. cbn [fst snd] in *. eapply cone_drop with (h1 := mk_ab h1); eauto.
    + exists e. split; [apply in_or_app; now left|exact Hc].
    + exists (z, y). split; [apply in_or_app; right; now left|]. cbn [fst snd] in *. eapply cone_drop with (h1 := mk_ab h1); eauto.
Qed.
Lemma around_insert p v1 t : Around (v1 :: t) -> let v0 := last t v1 in cross (mk_ab v0) (mk_ab p) < 0 -> cross (mk_ab p) (mk_ab v1) < 0 -> Around (p :: v1 :: t).
Proof.
  intros [C V] v0 H1 H2. rewrite cyc_cons in C, V. fold v0 in C, V.
  assert (Ez : last (v1 :: t) p = v0). { unfold v0. clear. revert v1. induction t as [|u l IH]; intros y; [reflexivity|]. cbn in *. destruct l; auto. }
  constructor; rewrite cyc_cons, Ez; cbn [lin app].
  - intros e [<-|[He|[<-|[]]]%in_app_or]; auto. apply C, in_or_app. now left.
  - intros u. destruct (V u) as (e & [He|[<-|[]]]%in_app_or & Hc).
    + exists e. split; [right; apply in_or_app; now left|exact Hc].
    + cbn [fst snd] in Hc. assert (C0 : cross (mk_ab v0) (mk_ab v1) < 0) by (apply (C (v0, v1)), in_or_app; right; now left).
      destruct (cone_insert _ (mk_ab p) _ _ H1 H2 C0 Hc) as [Hu|Hu]; [exists (v0, p)|exists (p, v1)]; (split; [|exact Hu]); [right; apply in_or_app; right; now left|now left].
Qed.
Lemma around_rebuild p : forall rot acc, acc <> [] -> (exists q, rev acc = p :: q) -> Around (rev acc ++ rot) -> Around (epa_rebuild p acc rot).
Proof.
  induction rot as [|h1 tl IH]; intros acc Ha Hp Har; cbn [epa_rebuild]; [now rewrite app_nil_r in Har|].
  set (h2 := match tl with h2 :: _ => mk_ab h2 | [] => mk_ab p end).
  rewrite pg_turn. destruct (Rltb_spec 0 (turn (mk_ab (hd p acc)) h2 (mk_ab h1))) as [H|H].
  - apply IH; [discriminate| |]. { destruct Hp as [q E]. exists (q ++ [h1]). cbn [rev]. now rewrite E. }
    cbn [rev]. now rewrite <- app_assoc.
  - apply IH; auto. apply around_rot. apply around_rot in Har. cbn [app] in Har.
    apply around_drop with (h1 := h1); auto.
    + destruct acc; [congruence|]. cbn [rev]. intros E. apply app_eq_nil in E as [_ E]. apply app_eq_nil in E as [_ E]. discriminate.
    + intros y z Hy Hz. destruct acc as [|a acc]; [congruence|]. cbn [rev] in Hz. rewrite app_assoc, last_last in Hz. subst z. cbn [hd] in H.
      replace (mk_ab y) with h2.
      * unfold turn in *. lra.
      * unfold h2. destruct tl as [|w tl]; cbn [app hd_error] in Hy; [|now injection Hy as <-]. destruct Hp as [q E]. rewrite E in Hy. cbn in Hy. now injection Hy as <-.
Qed.

(** ** the nearest edge *)
Lemma last_cons {X} (x d : X) l : last (x :: l) d = last l x.
Proof. revert x. induction l as [|u l IH]; intros y; [reflexivity|]. cbn in *. destruct l; auto. Qed.
Lemma nth_error_combine {X Y} : forall (l : list X) (l' : list Y) k, nth_error (combine l l') k = match nth_error l k, nth_error l' k with Some a, Some b => Some (a, b) | _, _ => None end.
Proof. induction l as [|a l IH]; intros [|b l'] [|k]; cbn; auto. destruct (nth_error l k); auto. Qed.
Lemma lin_combine {X} (l : list X) : forall x, lin x l = combine (x :: l) l.
Proof. induction l as [|y l IH]; intros x; [reflexivity|]. cbn [lin]. rewrite IH. reflexivity. Qed.
Lemma cyc_loop {X} (d : X) l e : In e (cyc l) <-> In e (loop d l).
Proof.
  destruct l as [|x t]; [cbn; tauto|]. rewrite cyc_cons, lin_combine. unfold loop. rewrite last_cons. cbn [combine]. rewrite in_app_iff. cbn [In]. tauto.
Qed.
Lemma fold_min {E} (f : E -> R) (ix : E -> nat) (l : list E) : forall st, let r := fold_left (fun st e => if Rltb (f e) (fst st) then (f e, ix e) else st) l st in
  (r = st /\ forall e, In e l -> fst st <= f e) \/ (exists e, In e l /\ r = (f e, ix e) /\ (forall e', In e' l -> f e <= f e') /\ f e < fst st).
Proof.
  induction l as [|e l IH]; intros st; cbn [fold_left]; [left; split; [reflexivity|intros ? []]|].
  destruct (Rltb_spec (f e) (fst st)) as [H|H].
  - destruct (IH (f e, ix e)) as [[-> Hm]|(e' & He & -> & Hm & Hl)]; cbn [fst] in *; right.
    + exists e. split; [now left|]. split; [reflexivity|]. split; [|exact H]. intros x [<-|Hx]; [lra|auto].
    + exists e'. split; [now right|]. split; [reflexivity|]. split; [|lra]. intros x [<-|Hx]; [lra|auto].
  - destruct (IH st) as [[-> Hm]|(e' & He & -> & Hm & Hl)].
    + left. split; [reflexivity|]. intros x [<-|Hx]; [lra|auto].
    + right. exists e'. split; [now right|]. split; [reflexivity|]. split; [|lra]. intros x [<-|Hx]; [lra|auto].
Qed.
Lemma snd_in_combine {X Y} : forall (l : list X) (l' : list Y) y, (length l' <= length l)%nat -> In y l' -> exists x, In (x, y) (combine l l').
Proof.
  induction l as [|a l IH]; intros [|b l'] y Hl; cbn [length] in Hl; try lia; intros Hy; try (destruct Hy; fail). destruct Hy as [<-|Hy]; [exists a; now left|].
  destruct (IH l' y) as [x Hx]; [lia|exact Hy|]. exists x. now right.
Qed.
Lemma hd_skipn {X} (d b : X) : forall k l r, nth_error l (S k) = Some b -> hd d (skipn (S k) l ++ r) = b.
Proof.
  induction k as [|k IH]; intros [|x l] r E; try discriminate.
  - destruct l as [|y l]; [discriminate|]. cbn in *. now injection E as <-.
  - change (skipn (S (S k)) (x :: l)) with (skipn (S k) l). now apply IH.
Qed.
Lemma epa_min_spec (hull : list (Mink R)) d0 : hull <> [] -> (forall e, In e (cyc hull) -> closest_dist (mk_ab (fst e)) (mk_ab (snd e)) < MaxFloat64) ->
  let m := epa_min hull d0 in let rot := skipn (S m) hull ++ firstn (S m) hull in
  (m < length hull)%nat /\ (exists t, rot = hd d0 rot :: t /\ last t (hd d0 rot) = nth m hull d0) /\
  forall e, In e (cyc hull) -> closest_dist (mk_ab (nth m hull d0)) (mk_ab (hd d0 rot)) <= closest_dist (mk_ab (fst e)) (mk_ab (snd e)).
Proof.
  intros Hn Hb m rot. assert (Hm : (m < length hull)%nat) by now apply mini_lt. split; [exact Hm|].
  set (f := fun e : nat * (Mink R * Mink R) => closest_dist (mk_ab (fst (snd e))) (mk_ab (snd (snd e)))).
  assert (Em : m = snd (fold_left (fun st e => if Rltb (f e) (fst st) then (f e, fst e) else st) (hull_pairs hull d0) (MaxFloat64, 0%nat))) by reflexivity.
  clearbody m.
  assert (R1 : rot = (skipn (S m) hull ++ firstn m hull) ++ [nth m hull d0]).
  { unfold rot. rewrite <- app_assoc. f_equal. clear - Hm. revert hull Hm. induction m as [|m IH]; intros [|x hull] Hm; cbn [length] in Hm; try lia; [reflexivity|]. cbn [firstn nth app]. f_equal. apply IH. lia. }
  split.
  - destruct rot as [|x t] eqn:Er; [symmetry in R1; apply app_eq_nil in R1 as [_ R1]; discriminate|]. exists t. cbn [hd]. split; [reflexivity|].
    apply (f_equal (fun l => last l d0)) in R1. rewrite last_last, last_cons in R1. exact R1.
  - assert (Hin : forall e, In e (cyc hull) -> exists i, In (i, e) (hull_pairs hull d0)).
    { intros e He. apply (cyc_loop d0) in He. apply snd_in_combine; [|exact He]. cbn [length]. rewrite seq_length. unfold loop. rewrite combine_length. cbn [length]. lia. }
    pose proof (fold_min f fst (hull_pairs hull d0) (MaxFloat64, 0%nat)) as F. cbv zeta in F.
    destruct F as [[_ F]|([i [a b]] & He & Er & F & _)].
    + exfalso. destruct hull as [|x t]; [congruence|]. assert (X : In (last t x, x) (cyc (x :: t))) by (rewrite cyc_cons; apply in_or_app; right; now left).
      destruct (Hin _ X) as [i Hi]. specialize (F _ Hi). specialize (Hb _ X). unfold f in F. cbn [fst snd] in *. lra.
    + rewrite Er in Em. cbn [fst snd] in Em. subst i. assert (Ei : a = nth m hull d0 /\ b = hd d0 rot).
      { apply In_nth_error in He as [k Hk]. unfold hull_pairs, loop in Hk. rewrite !nth_error_combine in Hk. destruct k as [|k].
        - cbn [nth_error] in Hk. destruct hull as [|x t]; [congruence|]. cbn [nth_error] in Hk. injection Hk as <- <- <-. 
          split; [|assert (Q : rot = x :: t); [unfold rot; rewrite skipn_all2, firstn_all2 by (cbn [length]; lia); reflexivity|rewrite Q; reflexivity]].
          change (last (x :: t) d0 = nth (length (x :: t) - 1) (x :: t) d0). rewrite last_cons. clear. cbn [length Nat.sub]. rewrite Nat.sub_0_r. revert x. induction t as [|y t IH]; intros x; [reflexivity|]. rewrite last_cons, IH. cbn [length]. destruct (length t); reflexivity.
        - change (nth_error ((length hull - 1)%nat :: seq 0 (length hull)) (S k)) with (nth_error (seq 0 (length hull)) k) in Hk. change (nth_error (last hull d0 :: hull) (S k)) with (nth_error hull k) in Hk.
          destruct (nth_error (seq 0 (length hull)) k) as [i|] eqn:E1; [|discriminate]. destruct (nth_error hull k) as [a'|] eqn:E2; [|discriminate]. destruct (nth_error hull (S k)) as [b'|] eqn:E3; [|discriminate].
          injection Hk as <- <- <-. assert (i = k). { apply nth_error_nth with (d := 0%nat) in E1. assert (k < length hull)%nat by (apply nth_error_Some; congruence). rewrite seq_nth in E1 by assumption. lia. }
          subst i. split; [symmetry; now apply nth_error_nth|]. unfold rot. symmetry. now apply hd_skipn. }
      destruct Ei as [<- <-]. intros e Hin'. destruct (Hin e Hin') as [i Hi]. exact (F _ Hi).
Qed.

(** ** extreme points of the Minkowski difference *)
Section Far.
Variables A B : Shape R.
Hypothesis RA : regular A.
Hypothesis RB : regular B.
Hypothesis ROB : robustly (core A) (core B).
Definition inM (u : RV) : Prop := exists x y, core A x /\ core B y /\ u = vminus y x.
Definition ext (h : RV) : Prop := exists m, 0 < inner h m /\ forall u, inM u -> inner u m <= inner h m.
Definition far (pts : CPoints R) : Prop := cp_d pts < 0 /\ forall u, norm u < - cp_d pts -> inM u.
Lemma rob_ball : exists e, 0 < e /\ forall u, norm u <= e -> inM u.
Proof.
  destruct ROB as (e & He & H). exists e. split; [exact He|]. intros u Hu. destruct (H (vscale (-1) u)) as (z & Hz1 & Hz2).
  - replace (norm (vscale (-1) u)) with (norm u); [exact Hu|]. unfold norm, norm2, vscale. cbn [vx vy]. f_equal. ring.
  - exists z, (vminus z (vscale (-1) u)). split; [exact Hz1|]. split; [exact Hz2|]. apply vec_eq; unfold vminus, vscale; cbn [vx vy]; ring.
Qed.
Lemma inM_zero : inM (mkV 0 0).
Proof. destruct rob_ball as (e & He & H). apply H. replace (norm (mkV 0 0)) with 0; [lra|]. unfold norm, norm2. cbn [vx vy]. replace (0 * 0 + 0 * 0) with 0 by ring. now rewrite sqrt_0. Qed.
Lemma rob_pos m : m <> mkV 0 0 -> exists u, inM u /\ 0 < inner u m.
Proof.
  intros Hm. destruct rob_ball as (e & He & H). pose proof (norm_pos m Hm) as Hp. pose proof (norm2_pos m Hm) as Hp2. exists (vscale (e / norm m) m).
  assert (0 < e / norm m) by now apply Rdiv_lt_0_compat. split.
  - apply H. rewrite norm_scale by lra. right. field. lra.
  - replace (inner (vscale (e / norm m) m) m) with ((e / norm m) * norm2 m) by (unfold inner, norm2, vscale; cbn [vx vy]; ring). now apply Rmult_lt_0_compat.
Qed.
Lemma inM_seg a b s : inM a -> inM b -> 0 <= s <= 1 -> inM (seg_point a b s).
Proof.
  intros (x & y & Hx & Hy & ->) (x' & y' & Hx' & Hy' & ->) Hs. exists (seg_point x x' s), (seg_point y y' s).
  split; [exact (hull_between _ _ _ _ Hx Hx' (ex_intro _ s (conj Hs eq_refl)))|]. split; [exact (hull_between _ _ _ _ Hy Hy' (ex_intro _ s (conj Hs eq_refl)))|].
  apply vec_eq; unfold seg_point, vminus; cbn [vx vy]; ring.
Qed.
Lemma inM_cone a b s t : inM a -> inM b -> 0 <= s -> 0 <= t -> s + t <= 1 -> inM (vplus (vscale s a) (vscale t b)).
Proof.
  intros Ha Hb Hs Ht H. destruct (Req_dec (s + t) 0) as [E|E].
  - replace (vplus (vscale s a) (vscale t b)) with (mkV 0 0); [apply inM_zero|]. assert (s = 0) by lra. assert (t = 0) by lra. subst. apply vec_eq; unfold vplus, vscale; cbn [vx vy]; ring.
  - replace (vplus (vscale s a) (vscale t b)) with (seg_point (mkV 0 0) (seg_point a b (t / (s + t))) (s + t)).
    + apply inM_seg; [apply inM_zero| |lra]. apply inM_seg; auto. split; [apply Rmult_le_pos; [lra|]; left; apply Rinv_0_lt_compat; lra|].
      apply Rmult_le_reg_r with (s + t); [lra|]. field_simplify; lra.
    + apply vec_eq; unfold seg_point, vplus, vscale; cbn [vx vy]; field; lra.
Qed.
Lemma good_inM v : good A B v -> inM (mk_ab v).
Proof. intros G. destruct (good_core A B RA RB v G) as [H1 H2]. exists (mk_a v), (mk_b v). destruct G as (_ & _ & E). auto. Qed.
Lemma ext_support n : n <> mkV 0 0 -> big n -> ext (mk_ab (support A B n)).
Proof.
  intros Hn Hb. assert (X : forall u, inM u -> inner u n <= inner (mk_ab (support A B n)) n) by (intros u (x & y & Hx & Hy & ->); now apply support_extreme).
  exists n. split; [|exact X]. destruct (rob_pos n Hn) as (u & Hu & Hp). specialize (X u Hu). lra.
Qed.
Lemma ext_insert v0 v1 p : ext v0 -> ext v1 -> inM v0 -> inM v1 -> inM p -> cross v0 v1 < 0 -> 0 < turn v0 v1 p -> cross v0 p < 0 /\ cross p v1 < 0.
Proof.
  intros (m0 & P0 & E0) (m1 & P1 & E1) I0 I1 Ip Hc Ht. rewrite turn_cross in Ht. split.
  - destruct (Rlt_dec (cross v0 p) 0) as [|Hn]; [assumption|exfalso]. pose proof (E0 _ I1) as H1. pose proof (E0 _ Ip) as H2.
    assert (I : cross v1 p * inner v0 m0 = cross v0 p * inner v1 m0 + - cross v0 v1 * inner p m0) by (unfold cross, inner; ring).
    assert (0 <= cross v0 p * (inner v0 m0 - inner v1 m0)) by (apply Rmult_le_pos; lra).
    assert (0 <= - cross v0 v1 * (inner v0 m0 - inner p m0)) by (apply Rmult_le_pos; lra).
    assert (0 < (cross v1 p - cross v0 p + cross v0 v1) * inner v0 m0) by (apply Rmult_lt_0_compat; [unfold cross in *; lra|lra]). lra.
  - destruct (Rlt_dec (cross p v1) 0) as [|Hn]; [assumption|exfalso]. pose proof (E1 _ I0) as H1. pose proof (E1 _ Ip) as H2.
    assert (I : cross p v0 * inner v1 m1 = cross p v1 * inner v0 m1 + - cross v0 v1 * inner p m1) by (unfold cross, inner; ring).
    assert (0 <= cross p v1 * (inner v1 m1 - inner v0 m1)) by (apply Rmult_le_pos; lra).
    assert (0 <= - cross v0 v1 * (inner v1 m1 - inner p m1)) by (apply Rmult_le_pos; lra).
    assert (0 < (cross p v0 - cross p v1 + cross v0 v1) * inner v1 m1) by (apply Rmult_lt_0_compat; [unfold cross in *; lra|lra]). lra.
Qed.
Lemma dist_bound a b : good A B a -> good A B b -> mk_ab a <> mk_ab b -> closest_dist (mk_ab a) (mk_ab b) < MaxFloat64.
Proof.
  intros Ga Gb Hn. eapply Rle_lt_trans; [apply (closest_dist_nearest _ _ (mk_ab a) Hn)|].
  - exists 0. split; [lra|]. apply vec_eq; unfold seg_point; cbn [vx vy]; ring.
  - eapply Rle_lt_trans; [|apply huge_max]. destruct (good_bound A B RA RB a Ga) as [X Y]. unfold norm2.
    assert (S : forall z, Rabs z <= 2 * huge -> z * z <= (2 * huge) * (2 * huge)).
    { intros z Hz. rewrite <- (Rabs_pos_eq (z * z)) by apply sq_pos. rewrite Rabs_mult. apply Rmult_le_compat; auto; apply Rabs_pos. }
    pose proof (S _ X). pose proof (S _ Y). lra.
Qed.
Lemma cross_ne a b : cross a b < 0 -> a <> b.
Proof. intros H ->. unfold cross in H. lra. Qed.
(** the whole disc up to the nearest edge *)
Definition foot (v0 v1 : Mink R) : RV := seg_point (mk_ab v0) (mk_ab v1) ((1 + closest_t (mk_ab v0) (mk_ab v1)) / 2).
Lemma around_ball hull v0 v1 : (forall v, In v hull -> good A B v) -> Around hull ->
  (forall e, In e (cyc hull) -> In (fst e) hull /\ In (snd e) hull) ->
  (forall e, In e (cyc hull) -> closest_dist (mk_ab v0) (mk_ab v1) <= closest_dist (mk_ab (fst e)) (mk_ab (snd e))) ->
  forall u, norm2 u < norm2 (foot v0 v1) -> inM u.
Proof.
  intros Hg [C V] Hin Hmin.
  assert (Ecd : closest_dist (mk_ab v0) (mk_ab v1) = norm2 (foot v0 v1)) by (unfold closest_dist; rewrite lerp_t_seg; reflexivity).
  intros u Hu. destruct (V u) as ([a b] & He & (s & t & Hs & Ht & ->)). cbn [fst snd] in *.
  destruct (Hin _ He) as [Ia Ib]. specialize (Hmin _ He). specialize (C _ He). cbn [fst snd] in *.
  destruct (Rle_dec (s + t) 1) as [Hst|Hst]; [apply inM_cone; auto; apply good_inM; auto|exfalso].
  assert (Hq : closest_dist (mk_ab a) (mk_ab b) <= norm2 (seg_point (mk_ab a) (mk_ab b) (t / (s + t)))).
  { apply closest_dist_nearest; [now apply cross_ne|]. exists (t / (s + t)). split; [|reflexivity]. split; [apply Rmult_le_pos; [lra|]; left; apply Rinv_0_lt_compat; lra|].
    apply Rmult_le_reg_r with (s + t); [lra|]. field_simplify; lra. }
  set (u := vplus (vscale s (mk_ab a)) (vscale t (mk_ab b))) in *.
  assert (Eq : norm2 u = (s + t) * (s + t) * norm2 (seg_point (mk_ab a) (mk_ab b) (t / (s + t)))).
  { unfold u, norm2, seg_point, vplus, vscale. cbn [vx vy]. field. lra. }
  set (q := norm2 (seg_point _ _ _)) in *. assert (0 <= q) by apply norm2_nonneg.
  assert (1 <= (s + t) * (s + t)). { replace 1 with (1 * 1) by ring. apply Rmult_le_compat; lra. }
  assert (0 <= ((s + t) * (s + t) - 1) * q) by (apply Rmult_le_pos; lra). lra.
Qed.
(** how EPA ends *)
Definition fin (pts : CPoints R) : Prop := exists v0 v1, pts = closest_points v0 v1 /\ good A B v0 /\ good A B v1 /\ cross (mk_ab v0) (mk_ab v1) < 0 /\
  (forall u, inM u -> inner u (vperp (vsub (mk_ab v1) (mk_ab v0))) <= inner (mk_ab v0) (vperp (vsub (mk_ab v1) (mk_ab v0)))) /\
  forall u, norm2 u < norm2 (foot v0 v1) -> inM u.
Lemma fin_far pts : fin pts -> far pts.
Proof.
  intros (v0 & v1 & -> & G0 & G1 & Hc & _ & Hball). pose proof (cp_unfold v0 v1) as HC. cbv zeta in HC. fold (foot v0 v1) in HC. set (p := foot v0 v1) in *.
  pose proof (edge_k_pos (mk_ab v0) (mk_ab v1)) as Kp. assert (Hd : edge_k (mk_ab v0) (mk_ab v1) * cross (mk_ab v0) (mk_ab v1) < 0).
  { assert (0 < edge_k (mk_ab v0) (mk_ab v1) * (- cross (mk_ab v0) (mk_ab v1))) by (apply Rmult_lt_0_compat; lra). lra. }
  destruct HC as [(_ & En & Ed)|(Hd' & _)]; [|lra]. unfold far. rewrite Ed. split; [exact Hd|].
  set (d := edge_k _ _ * _) in *.
  assert (Ep : inner (edge_n (mk_ab v0) (mk_ab v1)) p = d) by (rewrite edge_inner; unfold d, p, foot, cross, vminus, seg_point; cbn [vx vy]; ring).
  assert (Hp : d * d <= norm2 p).
  { rewrite <- Ep. pose proof (lagrange (edge_n (mk_ab v0) (mk_ab v1)) p) as L. pose proof (edge_norm (mk_ab v0) (mk_ab v1)) as N1.
    assert (N2 : norm2 (edge_n (mk_ab v0) (mk_ab v1)) <= 1). { unfold norm in N1. rewrite <- sqrt_1 in N1. apply sqrt_le_0 in N1; auto; [apply norm2_nonneg|lra]. }
    pose proof (sq_pos (cross (edge_n (mk_ab v0) (mk_ab v1)) p)). pose proof (norm2_nonneg p).
    assert (0 <= (1 - norm2 (edge_n (mk_ab v0) (mk_ab v1))) * norm2 p) by (apply Rmult_le_pos; lra). lra. }
  intros u Hu. apply Hball.
  assert (Hu2 : norm2 u < d * d).
  { pose proof (norm_nonneg u) as Nu. assert (E : norm2 u = norm u * norm u) by (unfold norm; rewrite sqrt_sqrt; [reflexivity|apply norm2_nonneg]). rewrite E.
    replace (d * d) with ((- d) * (- d)) by ring. apply Rle_lt_trans with (norm u * - d); [apply Rmult_le_compat_l; lra|apply Rmult_lt_compat_r; lra]. }
  lra.
Qed.
Lemma cyc_in {X} (l : list X) e : In e (cyc l) -> In (fst e) l /\ In (snd e) l.
Proof.
  destruct l as [|x t]; [intros []|]. rewrite cyc_cons, lin_combine, in_app_iff. intros [He|[<-|[]]].
  - destruct e as [a b]. split; [now apply in_combine_l in He|]. apply in_combine_r in He. now right.
  - cbn [fst snd]. split; [|now left]. clear. revert x. induction t as [|y t IH]; intros x; [now left|]. rewrite last_cons. right. apply IH.
Qed.
(** three points with the origin on the edge from the last to the first *)
Definition flat (hull : list (Mink R)) : Prop := exists v0 p v1 k, hull = [v0; p; v1] /\ cross (mk_ab v0) (mk_ab p) < 0 /\ cross (mk_ab p) (mk_ab v1) < 0 /\ 0 < k /\ mk_ab v1 = vscale (- k) (mk_ab v0).
Lemma seg_zero a b q : on_segment a b q -> norm2 q = 0 -> cross a b = 0.
Proof.
  intros (s & Hs & ->) Hq. unfold norm2, seg_point in Hq. cbn [vx vy] in Hq.
  set (x := vx a + s * (vx b - vx a)) in *. set (y := vy a + s * (vy b - vy a)) in *.
  assert (Hx : x = 0). { destruct (Req_dec x 0); auto. pose proof (sq_pos y). assert (0 < x * x) by (apply Rsqr_pos_lt in H; exact H). lra. }
  assert (Hy : y = 0). { rewrite Hx in Hq. destruct (Req_dec y 0); auto. assert (0 < y * y) by (apply Rsqr_pos_lt in H; exact H). lra. }
  unfold cross. assert (E : x * (vy b - vy a) - y * (vx b - vx a) = vx a * vy b - vy a * vx b) by (unfold x, y; ring). rewrite Hx, Hy in E. lra.
Qed.
Lemma closest_zero a b : closest_dist a b = 0 -> cross a b = 0.
Proof.
  unfold closest_dist. rewrite lerp_t_seg. intros E. eapply seg_zero; [|exact E]. eexists. split; [|reflexivity]. pose proof (closest_t_range a b). lra.
Qed.
Ltac inl := cbn [lin last app In]; repeat (first [left; reflexivity|right]).
Lemma flat_around v0 p v1 k q : cross (mk_ab v0) (mk_ab p) < 0 -> cross (mk_ab p) (mk_ab v1) < 0 -> 0 < k -> mk_ab v1 = vscale (- k) (mk_ab v0) -> 0 < turn (mk_ab v1) (mk_ab v0) (mk_ab q) -> Around [q; v0; p; v1].
Proof.
  intros H1 H2 Hk E Ht. rewrite turn_cross, E in Ht.
  assert (Hq : 0 < cross (mk_ab v0) (mk_ab q)).
  { assert (X : 0 < (1 + k) * cross (mk_ab v0) (mk_ab q)) by (unfold cross, vscale in *; cbn [vx vy] in *; lra).
    destruct (Rlt_dec 0 (cross (mk_ab v0) (mk_ab q))); auto. assert (0 <= (1 + k) * - cross (mk_ab v0) (mk_ab q)) by (apply Rmult_le_pos; lra). lra. }
  assert (Hq' : cross (mk_ab q) (mk_ab v0) < 0) by (unfold cross in *; lra).
  assert (Hq1 : cross (mk_ab v1) (mk_ab q) < 0).
  { rewrite E. replace (cross (vscale (- k) (mk_ab v0)) (mk_ab q)) with (- (k * cross (mk_ab v0) (mk_ab q))) by (unfold cross, vscale; cbn [vx vy]; ring).
    assert (0 < k * cross (mk_ab v0) (mk_ab q)) by now apply Rmult_lt_0_compat. lra. }
  assert (CS : forall u, cross (mk_ab v1) u = - (k * cross (mk_ab v0) u)) by (intros u; rewrite E; unfold cross, vscale; cbn [vx vy]; ring).
  constructor; rewrite cyc_cons; cbn [lin last app].
  - intros e [<-|[<-|[<-|[<-|[]]]]]; assumption.
  - intros u. destruct (Rle_dec (cross (mk_ab v0) u) 0) as [Hu|Hu].
    + assert (0 <= k * - cross (mk_ab v0) u) by (apply Rmult_le_pos; lra). pose proof (CS u) as CU. destruct (Rle_dec (cross u (mk_ab p)) 0) as [Hp|Hp].
      * exists (v0, p). split; [inl|]. now apply cone_in.
      * exists (p, v1). split; [inl|]. apply cone_in; cbn [fst snd]; auto; unfold cross in *; lra.
    + assert (0 < k * cross (mk_ab v0) u) by (apply Rmult_lt_0_compat; lra). pose proof (CS u) as CU. destruct (Rle_dec (cross u (mk_ab q)) 0) as [Hp|Hp].
      * exists (v1, q). split; [inl|]. apply cone_in; cbn [fst snd]; auto. lra.
      * exists (q, v0). split; [inl|]. apply cone_in; cbn [fst snd]; auto; unfold cross in *; lra.
Qed.
Lemma epa_fin : forall fuel hull it pts, hull <> [] -> (forall v, In v hull -> good A B v /\ ext (mk_ab v)) -> Around hull \/ flat hull ->
  epa_recurse fuel A B hull it = Some (pts, true) -> fin pts.
Proof.
  induction fuel as [|fuel IH]; intros hull it pts Hn Hg Har; [discriminate|]. cbn [epa_recurse].
  set (d0 := mkMk vzero vzero vzero 0).
  assert (Hne : forall e, In e (cyc hull) -> mk_ab (fst e) <> mk_ab (snd e)).
  { intros e He. destruct Har as [[C _]|(v0 & p & v1 & k & -> & H1 & H2 & Hk & E)]; [apply cross_ne; now apply C|].
    rewrite cyc_cons in He. cbn [lin last app] in He. destruct He as [<-|[<-|[<-|[]]]]; cbn [fst snd]; try now apply cross_ne. rewrite E. intros X. assert (Z : mk_ab v0 = mkV 0 0).
    { destruct (mk_ab v0) as [z w]. unfold vscale in X. cbn [vx vy] in X. injection X as X1 X2. assert (Y : forall z w, - k * z = w -> w = z -> z = 0).
      { intros z' w' Y1 Y2. subst w'. assert (Y3 : (1 + k) * z' = 0) by lra. apply Rmult_integral in Y3 as [Y3|Y3]; [lra|exact Y3]. }
      apply vec_eq; cbn [vx vy]; eapply Y; eauto. }
    rewrite Z in H1. unfold cross in H1. cbn [vx vy] in H1. lra. }
  assert (Hb : forall e, In e (cyc hull) -> closest_dist (mk_ab (fst e)) (mk_ab (snd e)) < MaxFloat64).
  { intros e He. destruct (cyc_in hull e He) as [I1 I2]. apply dist_bound; [apply Hg, I1|apply Hg, I2|now apply Hne]. }
  pose proof (epa_min_spec hull d0 Hn Hb) as SP. cbv zeta in SP. set (mini := epa_min hull d0) in *. set (rot := skipn (S mini) hull ++ firstn (S mini) hull) in *.
  destruct SP as (Hmi & (t & Er & El) & Hmin).
  assert (Hr : forall v, In v rot -> In v hull) by (intros v [Hv|Hv]%in_app_or; [eapply in_skipn|eapply in_firstn]; exact Hv).
  set (v0 := nth mini hull d0) in *. set (v1 := hd d0 rot) in *.
  assert (I0 : In v0 hull) by (apply nth_In; exact Hmi). assert (I1 : In v1 hull) by (apply Hr; rewrite Er; now left).
  destruct (Hg v0 I0) as [G0 X0], (Hg v1 I1) as [G1 X1].
  set (n := vperp (vsub (mk_ab v1) (mk_ab v0))). set (p := support A B n).
  assert (Gp : good A B p) by now apply support_good.
  assert (Bn : big n) by now apply (perp_big A B).
  assert (Hcyc : In (v0, v1) (cyc hull)).
  { pose proof (rots (v0, v1) (skipn (S mini) hull) (firstn (S mini) hull)) as RT. rewrite firstn_skipn in RT. apply RT. change (In (v0, v1) (cyc rot)). clearbody v1. rewrite Er, cyc_cons, El. apply in_or_app. right. now left. }
  assert (Nn : n <> mkV 0 0).
  { specialize (Hne _ Hcyc). cbn [fst snd] in Hne. intros E. apply Hne. unfold n, vperp, vsub in E. unR. cbn [vx vy] in E. injection E as E1 E2. apply vec_eq; lra. }
  assert (Xp : ext (mk_ab p)) by now apply ext_support.
  assert (FL : flat hull -> cross (mk_ab v0) (mk_ab v1) = 0 /\ exists a b c k, rot = [a; b; c] /\ v0 = c /\ v1 = a /\ cross (mk_ab a) (mk_ab b) < 0 /\ cross (mk_ab b) (mk_ab c) < 0 /\ 0 < k /\ mk_ab c = vscale (- k) (mk_ab a)).
  { intros (a & b & c & k & E & H1 & H2 & Hk & Ek).
    assert (Z : closest_dist (mk_ab c) (mk_ab a) <= 0).
    { eapply Rle_trans; [apply (closest_dist_nearest _ _ (mkV 0 0))|unfold norm2; cbn [vx vy]; lra].
      - apply (Hne (c, a)). rewrite E, cyc_cons. inl.
      - exists (k / (1 + k)). split; [split; [apply Rlt_le, Rdiv_lt_0_compat; lra|apply Rmult_le_reg_r with (1 + k); [lra|]; field_simplify; lra]|].
        rewrite Ek. apply vec_eq; unfold seg_point, vscale; cbn [vx vy]; field; lra. }
    assert (Hca : In (c, a) (cyc hull)) by (rewrite E, cyc_cons; inl).
    pose proof (Hmin _ Hca) as Hm. cbn [fst snd] in Hm.
    assert (Z0 : closest_dist (mk_ab v0) (mk_ab v1) = 0) by (apply Rle_antisym; [lra|apply norm2_nonneg]).
    apply closest_zero in Z0. split; [exact Z0|]. exists a, b, c, k. assert (Em : mini = 2%nat).
    { assert (mini = 0 \/ mini = 1 \/ mini = 2)%nat as [M|[M|M]] by (rewrite E in Hmi; cbn in Hmi; lia); [exfalso|exfalso|exact M]; unfold v0, v1, rot in Z0; rewrite M, E in Z0; cbn in Z0; lra. }
    unfold v0, v1, rot. rewrite Em, E. cbn. auto 8. }
  match goal with |- (if ?x && _ then _ else _) = _ -> _ => destruct x eqn:E end; cbn [andb negb].
  - destruct (it <? maxEpa)%nat; [|discriminate]. apply andb_prop in E as [_ E]. rewrite pg_turn in E. apply Rltb_true in E. apply IH.
    + intros E2. pose proof (rebuild_in p p rot [p] (or_introl eq_refl)) as X. rewrite E2 in X. destruct X.
    + intros v. apply (rebuild_forall (fun v => good A B v /\ ext (mk_ab v))); [intros w [<-|[]]; auto|intros w Hw; apply Hg, Hr, Hw].
    + left. apply around_rebuild; [discriminate|exists []; reflexivity|]. cbn [rev app].
      destruct Har as [Har|Hfl].
      * assert (Har' : Around rot) by (unfold rot; apply around_rot; now rewrite firstn_skipn). clearbody v1. rewrite Er in Har' |- *. apply around_insert; [exact Har'| |]; try rewrite El;
          apply (ext_insert (mk_ab v0) (mk_ab v1) (mk_ab p)); auto; try (now apply good_inM); apply (ar_cw hull Har (v0, v1) Hcyc).
      * destruct (FL Hfl) as (_ & a & b & c & k & Ers & -> & Ea & H1 & H2 & Hk & Ek). rewrite Ea in E. rewrite Ers. eapply flat_around; eauto.
  - intros [= <-]. assert (Hside : forall u, inM u -> inner u n <= inner (mk_ab v0) n).
    { intros u (x & y & Hx & Hy & ->). eapply Rle_trans; [apply (support_extreme A B RA RB); auto|]. fold p.
      apply andb_false_iff in E as [E|E].
      + apply negb_false_iff, orb_prop in E as [E|E]; apply N.eqb_eq in E; apply (same_id A B) in E; auto; rewrite E; [lra|].
        unfold n, inner, vperp, vsub. unR. cbn [vx vy]. lra.
      + rewrite pg_turn in E. apply Rltb_false in E. unfold n, turn, inner, vperp, vsub in *. unR. cbn [vx vy]. lra. }
    destruct Har as [Har|Hfl].
    + exists v0, v1. split; [reflexivity|]. split; [exact G0|]. split; [exact G1|]. split; [apply (ar_cw hull Har (v0, v1) Hcyc)|]. split; [exact Hside|].
      apply around_ball with (hull := hull); auto; [intros v Hv; apply Hg, Hv|apply cyc_in].
    + exfalso. destruct (FL Hfl) as [Z _]. destruct (rob_pos n Nn) as (u & Hu & Hp). specialize (Hside u Hu).
      assert (inner (mk_ab v0) n = 0) by (unfold n, inner, cross, vperp, vsub in *; unR; cbn [vx vy]; lra). lra.
Qed.
Lemma gjk_fin : forall fuel v0 v1 it pts, good A B v0 -> good A B v1 -> ext (mk_ab v0) -> ext (mk_ab v1) -> mk_ab v0 <> mk_ab v1 ->
  gjk_recurse fuel A B v0 v1 it = Some (pts, true) -> fin pts.
Proof.
  assert (EZ : forall h, ext h -> h <> mkV 0 0). { intros h (m & P & _) ->. unfold inner in P. cbn [vx vy] in P. lra. }
  induction fuel as [|fuel IH]; intros v0 v1 it pts G0 G1 X0 X1 Hne; [discriminate|]. cbn [gjk_recurse].
  destruct (maxGjk <? it)%nat; [discriminate|]. rewrite !pg_iff.
  destruct (Rltb_spec 0 (cross (mk_ab v1) (mk_ab v0))) as [Hf|Hf]; [apply IH; auto|].
  assert (Hc : 0 <= cross (mk_ab v0) (mk_ab v1)) by (unfold cross in *; lra).
  match goal with |- context [support A B ?n0] => set (n := n0) end. set (p := support A B n).
  assert (Gp : good A B p) by now apply support_good.
  assert (Bn : big n).
  { unfold n. destruct (_ && _); [now apply (perp_big A B)|]. rewrite lerp_t_seg. apply (seg_big A B); auto. pose proof (closest_t_range (mk_ab v0) (mk_ab v1)). lra. }
  pose proof (closest_t_cases (mk_ab v0) (mk_ab v1) Hne) as CT. cbv zeta in CT.
  assert (Nn : n <> mkV 0 0 /\ Rmax (inner (mk_ab v0) n) (inner (mk_ab v1) n) <= 0).
  { unfold n. unR. set (t := closest_t (mk_ab v0) (mk_ab v1)) in *. destruct CT as [[Ht Hi]|[Hq [Hi1 Hi2]]].
    - replace (Rltb (- (1)) t) with true by (symmetry; apply Rltb_true; lra). replace (Rltb t 1) with true by (symmetry; apply Rltb_true; lra). cbn [andb]. split.
      + intros E. apply Hne. unfold vperp, vsub in E. unR. cbn [vx vy] in E. injection E as E1 E2. apply vec_eq; lra.
      + apply Rmax_lub; unfold inner, cross, vperp, vsub in *; unR; cbn [vx vy]; lra.
    - replace (Rltb (- (1)) t && Rltb t 1) with false.
      2:{ symmetry. apply andb_false_iff. destruct Hq as [[-> _]|[-> _]]; [left|right]; apply Rltb_false; lra. }
      rewrite lerp_t_seg. set (q := seg_point _ _ _) in *. assert (Nq : q <> mkV 0 0) by (destruct Hq as [[_ ->]|[_ ->]]; auto).
      clearbody q. split. { intros E. apply Nq. unfold vneg in E. unR. injection E as E1 E2. apply vec_eq; cbn [vx vy]; lra. }
      pose proof (norm2_nonneg q) as Q. change (norm2 q) with (inner q q) in Q.
      apply Rmax_lub; unfold vneg; unR; unfold inner in *; cbn [vx vy]; lra. }
  destruct Nn as [Nn Hmx].
  assert (Xp : ext (mk_ab p)) by now apply ext_support.
  match goal with |- (if ?x then _ else _) = _ -> _ => destruct x eqn:E1 end.
  - apply andb_prop in E1 as [E1 E2]. apply Rltb_true in E1. apply Rltb_true in E2. unfold epa. apply epa_fin; [discriminate| |].
    + intros v [<-|[<-|[<-|[]]]]; auto.
    + assert (C1 : cross (mk_ab v0) (mk_ab p) < 0) by (unfold cross in *; lra). assert (C2 : cross (mk_ab p) (mk_ab v1) < 0) by (unfold cross in *; lra).
      set (a := mk_ab v0) in *. set (b := mk_ab v1) in *. set (c := mk_ab p) in *.
      destruct (Req_dec (cross a b) 0) as [Z|Z].
      * right. exists v0, p, v1, (cross b c / cross c a). repeat (split; [assumption || reflexivity|]). split; [apply Rdiv_lt_0_compat; assumption|].
        assert (I : cross b c * vx a + cross c a * vx b + cross a b * vx c = 0 /\ cross b c * vy a + cross c a * vy b + cross a b * vy c = 0) by (unfold cross; split; ring).
        destruct I as [J1 J2]. rewrite Z in J1, J2. fold a b. unfold vscale. apply vec_eq; cbn [vx vy]; apply Rmult_eq_reg_l with (cross c a); try lra; field_simplify; lra.
      * left. assert (C0 : cross b a < 0) by (unfold cross in *; lra). constructor; rewrite cyc_cons; cbn [lin last app].
        -- intros e [<-|[<-|[<-|[]]]]; cbn [fst snd]; assumption.
        -- intros u. assert (I : cross b c * cross a u + cross c a * cross b u + cross a b * cross c u = 0) by (unfold cross; ring).
           assert (AS : forall x y, cross x y = - cross y x) by (intros; unfold cross; ring).
           assert (Zp : 0 < cross a b) by lra.
           destruct (Rle_dec 0 (cross c u)) as [Sc|Sc]; [destruct (Rle_dec (cross a u) 0) as [Sa|Sa]|destruct (Rle_dec 0 (cross b u)) as [Sb|Sb]].
           ++ exists (v0, p). split; [inl|]. apply cone_in; cbn [fst snd]; fold a c; auto. rewrite AS. lra.
           ++ exists (v1, v0). split; [inl|]. apply cone_in; cbn [fst snd]; fold a b; auto; [|rewrite AS; lra].
              destruct (Rle_dec (cross b u) 0); auto. assert (0 < cross b c * cross a u) by (apply Rmult_lt_0_compat; lra). assert (0 < cross c a * cross b u) by (apply Rmult_lt_0_compat; lra). assert (0 <= cross a b * cross c u) by (apply Rmult_le_pos; lra). lra.
           ++ exists (p, v1). split; [inl|]. apply cone_in; cbn [fst snd]; fold b c; auto; [lra|rewrite AS; lra].
           ++ exists (v1, v0). split; [inl|]. apply cone_in; cbn [fst snd]; fold a b; auto; [lra|]. rewrite AS.
              destruct (Rle_dec 0 (cross a u)); [lra|]. assert (0 < cross b c * - cross a u) by (apply Rmult_lt_0_compat; lra). assert (0 < cross c a * - cross b u) by (apply Rmult_lt_0_compat; lra). assert (0 < cross a b * - cross c u) by (apply Rmult_lt_0_compat; lra). lra.
  - destruct (checkaxis (mk_ab v0) (mk_ab v1) (mk_ab p) n) eqn:E2.
    + exfalso. unfold checkaxis in E2. unR. vdi. apply Rleb_true in E2. destruct Xp as (m & _ & _). destruct (rob_pos n Nn) as (u & (x & y & Hx & Hy & ->) & Hp).
      pose proof (support_extreme A B RA RB n x y Bn Hx Hy) as S. fold p in S. lra.
    + assert (N : mk_ab p <> mk_ab v0 /\ mk_ab p <> mk_ab v1).
      { unfold checkaxis in E2. unR. vdi. apply Rleb_false in E2. split; intros E; rewrite E in E2; unfold Rmax in E2; destruct (Rle_dec _ _); lra. }
      clearbody p. destruct N as [N1 N2]. match goal with |- (if ?x then _ else _) = _ -> _ => destruct x end; apply IH; auto.
Qed.
Lemma gjk_far : forall fuel v0 v1 it pts, good A B v0 -> good A B v1 -> ext (mk_ab v0) -> ext (mk_ab v1) -> mk_ab v0 <> mk_ab v1 ->
  gjk_recurse fuel A B v0 v1 it = Some (pts, true) -> far pts.
Proof. intros fuel v0 v1 it pts G0 G1 X0 X1 Hne H. apply fin_far. exact (gjk_fin fuel v0 v1 it pts G0 G1 X0 X1 Hne H). Qed.
End Far.
