(** ConvexHull over the reals: the chain is convex and loses no point. *)
From Coq Require Import Reals List Arith Bool Lia Lra Permutation.
From Verif Require Import Num Spec SpecShapes.
From Verif.Model Require Import Vector Hull.
From Verif.Proofs Require Import RTac Util Geom HullPf.
Import ListNotations.

Lemma NoDup_app_intro {A} (l m : list A) : NoDup l -> NoDup m -> (forall x, In x l -> In x m -> False) -> NoDup (l ++ m).
Proof. induction 1 as [|a l N ND IH]; cbn; auto. intros Nm D. constructor; [|apply IH; eauto]. rewrite in_app_iff. intros [?|?]; eauto. Qed.
Definition steps (l : list RV) : list (RV * RV) := combine l (tl l).
Lemma steps_app (l r : list RV) p e : In e (steps (l ++ p :: r)) <-> In e (steps (l ++ [p])) \/ In e (steps (p :: r)).
Proof.
  induction l as [|a l IH]; cbn [app].
  - unfold steps at 2. cbn [tl combine In]. tauto.
  - destruct l as [|b l]; cbn [app] in *.
    + unfold steps. cbn [tl combine In]. tauto.
    + change (steps (a :: b :: l ++ p :: r)) with ((a, b) :: steps (b :: l ++ p :: r)). change (steps (a :: b :: l ++ [p])) with ((a, b) :: steps (b :: l ++ [p])). cbn [In]. rewrite IH. tauto.
Qed.
Lemma last_any {A} (l : list A) y d d' : last (y :: l) d = last (y :: l) d'.
Proof. revert y. induction l as [|z l IH]; intros y; [reflexivity|]. change (last (z :: l) d = last (z :: l) d'). apply IH. Qed.
Lemma ring_steps (a : RV) l e : In e (ring (a :: l)) <-> In e (steps (a :: l ++ [a])).
Proof.
  unfold ring. cbn [combine]. assert (S1 : forall (x : RV) l, steps (x :: l ++ [a]) = combine (x :: l) l ++ [(last (x :: l) x, a)]).
  { clear. intros x l. revert x. induction l as [|y l IH]; intros x; [reflexivity|]. change (steps (x :: (y :: l) ++ [a])) with ((x, y) :: steps (y :: l ++ [a])). rewrite IH. cbn [combine app]. change (last (x :: y :: l) x) with (last (y :: l) x). now rewrite (last_any l y x y). }
  rewrite S1, in_app_iff. cbn [In]. tauto.
Qed.

Lemma side_turn (a b v : RV) : side a b v = - turn a b v.
Proof. unfold side, turn, vcross, vsub. unR. cbn [vx vy]. ring. Qed.
Lemma side_tol_dist tol (a b : RV) : side_tol tol a b = tol * dist a b.
Proof. unfold side_tol, vlen, dist, dist2, vdot, vsub. unR. cbn [vx vy]. do 2 f_equal. ring. Qed.
Lemma out_iff tol (a b v : RV) : out tol a b v = true <-> tol * dist a b < - turn a b v.
Proof. unfold out. rewrite side_turn, side_tol_dist. unR. apply Rltb_true. Qed.
Lemma out_not tol (a b v : RV) : out tol a b v = false <-> - turn a b v <= tol * dist a b.
Proof. unfold out. rewrite side_turn, side_tol_dist. unR. rewrite Rltb_false. lra. Qed.
Lemma dist_ge0 (u v : RV) : 0 <= dist u v. Proof. apply sqrt_pos. Qed.

(** the chosen point is farthest *)
Lemma picked_max (a b : RV) l m : (forall v, In v l -> turn a b v < 0) -> picked a b l m -> forall v, In v l -> turn a b m <= turn a b v.
Proof.
  intros Hn Hp v Hv.
  assert (G : forall (l0 l1 : list RV) mx pv i, i = length l0 -> (l0 = [] /\ mx = 0 \/ exists w, nth_error (l0 ++ l1) pv = Some w /\ side a b w = mx /\ forall u, In u l0 -> side a b u <= mx) ->
    (forall u, In u (l0 ++ l1) -> 0 < side a b u) -> l0 ++ l1 <> [] ->
    exists w, nth_error (l0 ++ l1) (snd (fst (fold_left (track a b) l1 (mx, pv, i)))) = Some w /\ forall u, In u (l0 ++ l1) -> side a b u <= side a b w).
  { clear. intros l0 l1. revert l0. induction l1 as [|x l1 IH]; intros l0 mx pv i -> HI Hp Hne.
    - cbn [fold_left fst snd]. rewrite app_nil_r in *. destruct HI as [[-> _]|(w & E & Ew & HI)]; [contradiction|]. exists w. split; [exact E|]. rewrite Ew. exact HI.
    - cbn [fold_left]. replace (l0 ++ x :: l1) with ((l0 ++ [x]) ++ l1) in * by now rewrite <- app_assoc. unfold track at 2. destruct (nltb mx (side a b x)) eqn:E.
      + apply IH; auto; [rewrite app_length; cbn; lia|]. right. exists x. split; [rewrite <- app_assoc; cbn [app]; apply nth_app|]. split; [reflexivity|]. intros u Hu. apply in_app_iff in Hu as [Hu|[<-|[]]]; [|lra]. cbn [nltb numR] in E. apply Rltb_true in E. destruct HI as [[-> _]|(w & _ & _ & HI)]; [destruct Hu|]. specialize (HI u Hu). lra.
      + cbn [nltb numR] in E. apply Rltb_false in E. destruct HI as [[-> ->]|(w & E1 & E2 & HI)].
        * exfalso. specialize (Hp x). assert (0 < side a b x) by (apply Hp; cbn; auto). lra.
        * apply IH; auto; [rewrite app_length; cbn; lia|]. right. exists w. split; [exact E1|]. split; [exact E2|]. intros u Hu. apply in_app_iff in Hu as [Hu|[<-|[]]]; [auto|lra]. }
  destruct (G [] l nzero 0%nat 0%nat eq_refl) as (w & E & M).
  - left. split; [reflexivity|]. unR. reflexivity.
  - intros u Hu. rewrite side_turn. specialize (Hn u Hu). lra.
  - cbn [app]. intros ->. destruct Hv.
  - cbn [app] in *. unfold picked in Hp. rewrite Hp in E. injection E as <-. specialize (M v Hv). rewrite !side_turn in M. lra.
Qed.

(** ** the chain between [a] and [b], outside the line from [a] to [b] *)
Definition lin (gx gy : R) (v : RV) : R := gx * vx v + gy * vy v.
Definition line_near (tol : R) (vs : list RV) (x : RV) : Prop := exists u w, In u vs /\ In w vs /\ u <> w /\ Rabs (turn u w x) <= tol * dist u w.
Record Good (tol : R) (a b : RV) (S c : list RV) : Prop := {
  g_incl : incl c S;
  g_nodup : NoDup c;
  g_mono : forall gx gy, lin gx gy a <= lin gx gy b -> (forall v, In v S -> lin gx gy a <= lin gx gy v <= lin gx gy b) -> forall u w, In (u, w) (steps (a :: c ++ [b])) -> lin gx gy u <= lin gx gy w;
  g_conv : forall u w x, In (u, w) (steps (a :: c ++ [b])) -> In x (a :: c ++ [b]) -> 0 <= turn u w x;
  g_all : tol = 0 -> forall u w x, In (u, w) (steps (a :: c ++ [b])) -> In x S -> 0 <= turn u w x;
  g_hull : tol = 0 -> forall x, In x S -> in_hull (a :: c ++ [b]) x;
  g_near : forall x, In x S -> in_hull (a :: c ++ [b]) x \/ line_near tol (a :: c ++ [b]) x }.
Lemma hull_incl vs ws x : incl vs ws -> in_hull vs x -> in_hull ws x.
Proof. intros I Hx. induction Hx as [v Hv|p q x _ IHp _ IHq Hs]; [apply hull_vertex; auto|exact (hull_between ws p q x IHp IHq Hs)]. Qed.
Lemma near_incl tol vs ws x : incl vs ws -> line_near tol vs x -> line_near tol ws x.
Proof. intros I (u & w & A & B & C). exists u, w. auto. Qed.
Lemma good_nil tol a b : Good tol a b [] [].
Proof.
  split; [apply incl_refl|constructor| | |intros _ u w x _ []|intros _ x []|intros x []].
  - intros gx gy L _ u w. cbn. intros [[= <- <-]|[]]. exact L.
  - intros u w x. cbn. intros [[= <- <-]|[]] [<-|[<-|[]]]; unfold turn; right; ring.
Qed.
(** three points *)
Lemma tri a p b x : 0 < - turn a b p -> turn a b x <= 0 -> 0 <= turn a p x -> 0 <= turn p b x -> in_hull [a; p; b] x.
Proof.
  intros Hh H1 H2 H3. set (h := - turn a b p) in *. assert (Hs : - turn a b x + turn a p x + turn p b x = h) by (unfold h, turn; ring).
  assert (Xx : h * vx x = turn p b x * vx a - turn a b x * vx p + turn a p x * vx b) by (unfold h, turn; ring).
  assert (Xy : h * vy x = turn p b x * vy a - turn a b x * vy p + turn a p x * vy b) by (unfold h, turn; ring).
  set (A := turn p b x) in *. set (P := - turn a b x) in *. set (B := turn a p x) in *. assert (HP : 0 <= P) by (unfold P; lra).
  assert (IA : in_hull [a; p; b] a) by (apply hull_vertex; cbn; auto). assert (IP : in_hull [a; p; b] p) by (apply hull_vertex; cbn; auto). assert (IB : in_hull [a; p; b] b) by (apply hull_vertex; cbn; auto).
  destruct (Req_dec (A + P) 0) as [Z|Z].
  - replace x with b; [exact IB|]. assert (A = 0) by lra. assert (P = 0) by lra. assert (B = h) by lra.
    apply vec_eq; [apply Rmult_eq_reg_l with h; [|lra]; rewrite Xx|apply Rmult_eq_reg_l with h; [|lra]; rewrite Xy]; replace (turn a b x) with (- P) by (unfold P; ring); rewrite H, H0, H4; ring.
  - set (q := seg_point a p (P / (A + P))). assert (Iq : in_hull [a; p; b] q).
    { apply hull_between with a p; auto. exists (P / (A + P)). split; [|reflexivity]. assert (0 < A + P) by lra. split; [apply Rmult_le_pos; [lra|]; left; apply Rinv_0_lt_compat; lra|]. apply Rmult_le_reg_r with (A + P); [lra|]. unfold Rdiv. rewrite Rmult_assoc, Rinv_l by lra. lra. }
    apply hull_between with q b; auto. exists (B / h). split.
    { split; [apply Rmult_le_pos; [exact H2|]; left; apply Rinv_0_lt_compat; lra|]. apply Rmult_le_reg_r with h; [lra|]. unfold Rdiv. rewrite Rmult_assoc, Rinv_l by lra. unfold P in *. lra. }
    assert (HB : B = h - (A + P)) by lra.
    apply vec_eq; unfold q, seg_point; cbn [vx vy].
    + apply Rmult_eq_reg_l with h; [|lra]. rewrite Xx. replace (turn a b x) with (- P) by (unfold P; ring). rewrite HB. field. lra.
    + apply Rmult_eq_reg_l with h; [|lra]. rewrite Xy. replace (turn a b x) with (- P) by (unfold P; ring). rewrite HB. field. lra.
Qed.

Lemma mid_in (a b p : RV) cl cr x : In x (a :: (cl ++ p :: cr) ++ [b]) <-> In x (a :: cl ++ [p]) \/ In x (p :: cr ++ [b]).
Proof. cbn [In]. rewrite !in_app_iff. cbn [In]. tauto. Qed.
Lemma mid_steps (a b p : RV) cl cr e : In e (steps (a :: (cl ++ p :: cr) ++ [b])) <-> In e (steps (a :: cl ++ [p])) \/ In e (steps (p :: cr ++ [b])).
Proof. replace (a :: (cl ++ p :: cr) ++ [b]) with ((a :: cl) ++ p :: cr ++ [b]) by (cbn [app]; rewrite <- app_assoc; reflexivity). apply steps_app. Qed.
Lemma good_step tol a p b S L N R D cl cr : 0 <= tol -> turn a b p < 0 -> (forall v, In v S -> turn a b p <= turn a b v < 0) ->
  Permutation S (L ++ N) -> Permutation N (R ++ D) ->
  (forall v, In v L -> turn a p v < 0) -> (forall v, In v N -> - turn a p v <= tol * dist a p) -> (forall v, In v R -> turn p b v < 0) -> (forall v, In v D -> - turn p b v <= tol * dist p b) ->
  Good tol a p L cl -> Good tol p b R cr -> Good tol a b (p :: S) (cl ++ p :: cr).
Proof.
  intros Ht Hp HS PS PN OL ON OR OD GL GR.
  assert (SL : forall v, In v L -> In v S) by (intros v Hv; eapply Permutation_in; [symmetry; exact PS|]; apply in_app_iff; auto).
  assert (SN : forall v, In v N -> In v S) by (intros v Hv; eapply Permutation_in; [symmetry; exact PS|]; apply in_app_iff; auto).
  assert (NR : forall v, In v R -> In v N) by (intros v Hv; eapply Permutation_in; [symmetry; exact PN|]; apply in_app_iff; auto).
  assert (ND : forall v, In v D -> In v N) by (intros v Hv; eapply Permutation_in; [symmetry; exact PN|]; apply in_app_iff; auto).
  assert (CASES : forall v, In v S -> In v L \/ In v R \/ In v D).
  { intros v Hv. eapply Permutation_in in Hv; [|exact PS]. apply in_app_iff in Hv as [Hv|Hv]; [auto|]. eapply Permutation_in in Hv; [|exact PN]. apply in_app_iff in Hv. tauto. }
  assert (SUM : forall v, turn a p v + turn p b v - turn a b v = - turn a b p) by (intros v; unfold turn; ring).
  set (h := - turn a b p) in *. assert (Hh : 0 < h) by (unfold h; lra).
  assert (LB : forall v, In v L -> 0 < turn p b v) by (intros v Hv; specialize (SUM v); specialize (OL v Hv); specialize (HS v (SL v Hv)); unfold h in *; lra).
  assert (RA : forall v, In v R -> 0 < turn a p v) by (intros v Hv; specialize (SUM v); specialize (OR v Hv); specialize (HS v (SN v (NR v Hv))); unfold h in *; lra).
  (* heights increase along the left part and decrease along the right part *)
  assert (ML : forall u w, In (u, w) (steps (a :: cl ++ [p])) -> turn a b w <= turn a b u).
  { intros u w Huw. assert (E : forall v, turn a b v = - (lin (vy b - vy a) (- (vx b - vx a)) v - lin (vy b - vy a) (- (vx b - vx a)) a)) by (intros v; unfold turn, lin; ring).
    pose proof (g_mono _ _ _ _ _ GL (vy b - vy a) (- (vx b - vx a))) as M. assert (0 = turn a b a) by (unfold turn; ring). rewrite !E in *. assert (X := M ltac:(lra)). cut (lin (vy b - vy a) (- (vx b - vx a)) u <= lin (vy b - vy a) (- (vx b - vx a)) w); [lra|]. apply X; [|exact Huw].
    intros v Hv. specialize (HS v (SL v Hv)). unfold h in *. rewrite !E in HS. lra. }
  assert (MR : forall u w, In (u, w) (steps (p :: cr ++ [b])) -> turn a b u <= turn a b w).
  { intros u w Huw. assert (E : forall v, turn a b v = lin (- (vy b - vy a)) (vx b - vx a) v - lin (- (vy b - vy a)) (vx b - vx a) b) by (intros v; unfold turn, lin; ring).
    pose proof (g_mono _ _ _ _ _ GR (- (vy b - vy a)) (vx b - vx a)) as M. assert (0 = turn a b b) by (unfold turn; ring). rewrite !E in *. assert (X := M ltac:(lra)). cut (lin (- (vy b - vy a)) (vx b - vx a) u <= lin (- (vy b - vy a)) (vx b - vx a) w); [lra|]. apply X; [|exact Huw].
    intros v Hv. specialize (HS v (SN v (NR v Hv))). rewrite !E in HS. lra. }
  (* the region beyond the left part, and beyond the right part *)
  assert (XL : forall u w x, In (u, w) (steps (a :: cl ++ [p])) -> turn a b p <= turn a b x <= 0 -> 0 <= turn a p x -> 0 <= turn u w x).
  { intros u w x Huw Hx Ha. assert (F1 := g_conv _ _ _ _ _ GL u w a Huw ltac:(cbn; auto)). assert (F2 := g_conv _ _ _ _ _ GL u w p Huw ltac:(right; apply in_app_iff; cbn; auto)). specialize (ML u w Huw).
    assert (E : h * turn u w x = (h + turn a b x) * turn u w a + (- turn a b x) * turn u w p + turn a p x * (turn a b u - turn a b w)) by (unfold h, turn; ring).
    apply Rmult_le_reg_l with h; [lra|]. rewrite E, Rmult_0_r. repeat apply Rplus_le_le_0_compat; apply Rmult_le_pos; unfold h in *; lra. }
  assert (XR : forall u w x, In (u, w) (steps (p :: cr ++ [b])) -> turn a b p <= turn a b x <= 0 -> 0 <= turn p b x -> 0 <= turn u w x).
  { intros u w x Huw Hx Ha. assert (F1 := g_conv _ _ _ _ _ GR u w b Huw ltac:(right; apply in_app_iff; cbn; auto)). assert (F2 := g_conv _ _ _ _ _ GR u w p Huw ltac:(cbn; auto)). specialize (MR u w Huw).
    assert (E : h * turn u w x = (h + turn a b x) * turn u w b + (- turn a b x) * turn u w p + turn p b x * (turn a b w - turn a b u)) by (unfold h, turn; ring).
    apply Rmult_le_reg_l with h; [lra|]. rewrite E, Rmult_0_r. repeat apply Rplus_le_le_0_compat; apply Rmult_le_pos; unfold h in *; lra. }
  assert (IL := g_incl _ _ _ _ _ GL). assert (IR := g_incl _ _ _ _ _ GR).
  assert (AP : a <> p) by (intros ->; unfold turn in Hp; lra). assert (PB : p <> b) by (intros ->; unfold turn in Hp; lra).
  assert (INL : incl (a :: cl ++ [p]) (a :: (cl ++ p :: cr) ++ [b])) by (intros x Hx; apply mid_in; auto). assert (INR : incl (p :: cr ++ [b]) (a :: (cl ++ p :: cr) ++ [b])) by (intros x Hx; apply mid_in; auto).
  assert (HD : forall x, In x S -> 0 <= turn a p x -> 0 <= turn p b x -> in_hull (a :: (cl ++ p :: cr) ++ [b]) x).
  { intros x Hx H1 H2. eapply hull_incl; [|apply (tri a p b x); auto; specialize (HS x Hx); lra]. intros y Hy. apply mid_in. cbn [In] in *. rewrite !in_app_iff. cbn [In]. tauto. }
  split.
  - intros x Hx. apply in_app_iff in Hx as [Hx|[<-|Hx]]; cbn; auto.
  - apply NoDup_app_intro; [apply GL|constructor; [|apply GR]|].
    + intros Hx. specialize (RA p (IR p Hx)). unfold turn in RA. lra.
    + intros x H1 [<-|H2]; [specialize (OL p (IL p H1)); unfold turn in OL; lra|]. specialize (OL x (IL x H1)). specialize (RA x (IR x H2)). lra.
  - intros gx gy Hab Hv u w Huw. set (g := lin gx gy) in *. assert (Hgp := Hv p ltac:(cbn; auto)). apply mid_steps in Huw as [Huw|Huw].
    + apply (g_mono _ _ _ _ _ GL gx gy); auto; [apply Hgp|]. intros v Hl. fold g. assert (Hgv := Hv v ltac:(cbn; auto)). split; [apply Hgv|].
      assert (E : h * (g v - g a) = - turn a b v * (g p - g a) + turn a p v * (g b - g a)) by (unfold h, g, lin, turn; ring).
      specialize (OL v Hl). specialize (HS v (SL v Hl)). apply Rplus_le_reg_r with (- g a). apply Rmult_le_reg_l with h; [lra|]. replace (h * (g v + - g a)) with (h * (g v - g a)) by ring. rewrite E.
      assert (0 <= (h + turn a b v) * (g p - g a)) by (apply Rmult_le_pos; unfold h; lra). assert (0 <= (- turn a p v) * (g b - g a)) by (apply Rmult_le_pos; lra). lra.
    + apply (g_mono _ _ _ _ _ GR gx gy); auto; [apply Hgp|]. intros v Hr. fold g. assert (Hgv := Hv v ltac:(cbn; auto)). split; [|apply Hgv].
      assert (E : h * (g b - g v) = - turn a b v * (g b - g p) + turn p b v * (g b - g a)) by (unfold h, g, lin, turn; ring).
      specialize (OR v Hr). specialize (HS v (SN v (NR v Hr))). 
      assert (0 <= (h + turn a b v) * (g b - g p)) by (apply Rmult_le_pos; unfold h; lra). assert (0 <= (- turn p b v) * (g b - g a)) by (apply Rmult_le_pos; lra).
      assert (h * (g b - g v) <= h * (g b - g p)) by lra. apply Rmult_le_reg_l in H1; lra.
  - intros u w x Huw Hx. apply mid_in in Hx. apply mid_steps in Huw as [Huw|Huw].
    + destruct Hx as [Hx|Hx]; [now apply (g_conv _ _ _ _ _ GL)|]. apply XL; auto.
      * destruct Hx as [<-|Hx]; [lra|]. apply in_app_iff in Hx as [Hx|[<-|[]]]; [specialize (HS x (SN x (NR x (IR x Hx)))); lra|]. unfold turn in *. lra.
      * destruct Hx as [<-|Hx]; [unfold turn; right; ring|]. apply in_app_iff in Hx as [Hx|[<-|[]]]; [specialize (RA x (IR x Hx)); lra|]. replace (turn a p b) with h by (unfold h, turn; ring). lra.
    + destruct Hx as [Hx|Hx]; [|now apply (g_conv _ _ _ _ _ GR)]. apply XR; auto.
      * destruct Hx as [<-|Hx]; [unfold turn in *; lra|]. apply in_app_iff in Hx as [Hx|[<-|[]]]; [specialize (HS x (SL x (IL x Hx))); lra|lra].
      * destruct Hx as [<-|Hx]; [replace (turn p b a) with h by (unfold h, turn; ring); lra|]. apply in_app_iff in Hx as [Hx|[<-|[]]]; [specialize (LB x (IL x Hx)); lra|unfold turn; right; ring].
  - intros T0 u w x Huw Hx. apply mid_steps in Huw. destruct Hx as [<-|Hx].
    { destruct Huw as [Huw|Huw]; [apply (g_conv _ _ _ _ _ GL); auto; right; apply in_app_iff; cbn; auto|apply (g_conv _ _ _ _ _ GR); cbn; auto]. }
    assert (HX := HS x Hx). destruct (CASES x Hx) as [H1|[H1|H1]].
    + destruct Huw as [Huw|Huw]; [now apply (g_all _ _ _ _ _ GL)|]. apply XR; auto; [lra|]. specialize (LB x H1). lra.
    + destruct Huw as [Huw|Huw]; [|now apply (g_all _ _ _ _ _ GR)]. apply XL; auto; [lra|]. specialize (RA x H1). lra.
    + assert (A1 := ON x (ND x H1)). assert (A2 := OD x H1). rewrite T0, Rmult_0_l in A1, A2. destruct Huw as [Huw|Huw]; [apply XL|apply XR]; auto; lra.
  - intros T0 x Hx. destruct Hx as [<-|Hx]; [apply hull_vertex, INL; right; apply in_app_iff; cbn; auto|]. destruct (CASES x Hx) as [H1|[H1|H1]].
    + apply (hull_incl _ _ _ INL). now apply (g_hull _ _ _ _ _ GL).
    + apply (hull_incl _ _ _ INR). now apply (g_hull _ _ _ _ _ GR).
    + assert (A1 := ON x (ND x H1)). assert (A2 := OD x H1). rewrite T0, Rmult_0_l in A1, A2. apply HD; auto; lra.
  - intros x Hx. destruct Hx as [<-|Hx]; [left; apply hull_vertex, INL; right; apply in_app_iff; cbn; auto|]. destruct (CASES x Hx) as [H1|[H1|H1]].
    + destruct (g_near _ _ _ _ _ GL x H1); [left; now apply (hull_incl _ _ _ INL)|right; now apply (near_incl _ _ _ _ INL)].
    + destruct (g_near _ _ _ _ _ GR x H1); [left; now apply (hull_incl _ _ _ INR)|right; now apply (near_incl _ _ _ _ INR)].
    + assert (A1 := ON x (ND x H1)). assert (A2 := OD x H1). destruct (Rle_dec 0 (turn a p x)) as [B1|B1]; [destruct (Rle_dec 0 (turn p b x)) as [B2|B2]; [left; apply HD; auto|]|].
      * right. exists p, b. split; [apply INR; cbn; auto|]. split; [apply INR; right; apply in_app_iff; cbn; auto|]. split; [exact PB|]. rewrite Rabs_left by lra. lra.
      * right. exists a, p. split; [apply INL; cbn; auto|]. split; [apply INL; right; apply in_app_iff; cbn; auto|]. split; [exact AP|]. rewrite Rabs_left by lra. lra.
Qed.
Lemma qh_good tol : 0 <= tol ->
  (forall S a p b c, qh tol S a p b c -> turn a b p < 0 -> (forall v, In v S -> turn a b p <= turn a b v < 0) -> Good tol a b (p :: S) c) /\
  (forall S a b c, sub tol S a b c -> (forall v, In v S -> turn a b v < 0) -> Good tol a b S c).
Proof.
  intros Ht. apply (qh_sub_ind tol (fun S a p b c _ => turn a b p < 0 -> (forall v, In v S -> turn a b p <= turn a b v < 0) -> Good tol a b (p :: S) c) (fun S a b c _ => (forall v, In v S -> turn a b v < 0) -> Good tol a b S c)).
  - intros a p b Hp _. apply (good_step tol a p b [] [] [] [] [] [] [] Ht Hp); try (intros v []); try apply good_nil; apply Permutation_refl.
  - intros S a p b L N R D cl cr PS PN FL FN FR FD _ IL _ IR Hp HS. rewrite Forall_forall in *.
    assert (OL : forall v, In v L -> turn a p v < 0) by (intros v Hv; specialize (FL v Hv); apply out_iff in FL; pose proof (Rmult_le_pos _ _ Ht (dist_ge0 a p)); lra).
    assert (OR : forall v, In v R -> turn p b v < 0) by (intros v Hv; specialize (FR v Hv); apply out_iff in FR; pose proof (Rmult_le_pos _ _ Ht (dist_ge0 p b)); lra).
    refine (good_step tol a p b S L N R D cl cr Ht Hp HS PS PN OL _ OR _ (IL OL) (IR OR)).
    + intros v Hv. now apply out_not, FN.
    + intros v Hv. now apply out_not, FD.
  - intros a b _. apply good_nil.
  - intros L0 m L a b c P PK _ IH HS. assert (H0 : forall v, In v L0 -> turn a b v < 0) by (intros v Hv; apply HS; eapply Permutation_in; eauto).
    pose proof (picked_max a b L0 m H0 PK) as M. apply IH; [apply HS; cbn; auto|]. intros v Hv. split; [|apply HS; cbn; auto]. apply M. eapply Permutation_in; [symmetry; exact P|]. cbn. auto.
Qed.

(** ** the ends *)
Definition lexle (u v : RV) : Prop := vx u < vx v \/ vx u = vx v /\ vy u <= vy v.
Lemma lexle_refl u : lexle u u. Proof. right. lra. Qed.
Lemma lexle_trans u v w : lexle u v -> lexle v w -> lexle u w. Proof. unfold lexle. lra. Qed.
Lemma vlt_iff (u v : RV) : vlt u v = true <-> ~ lexle v u.
Proof.
  unfold vlt, lexle. cbn [nltb neqb numR]. destruct (Rltb (vx u) (vx v)) eqn:E1; destruct (Reqb (vx u) (vx v)) eqn:E2; destruct (Rltb (vy u) (vy v)) eqn:E3; rbool; cbn [orb andb]; (split; [intros; try discriminate; lra|intros; try reflexivity; exfalso; lra]).
Qed.
Lemma vlt_false (u v : RV) : vlt u v = false -> lexle v u.
Proof. intros E. destruct (Rlt_dec (vx v) (vx u)); [left; auto|]. destruct (Rlt_dec (vx u) (vx v)) as [L|L]; [exfalso; assert (vlt u v = true) by (apply vlt_iff; unfold lexle; lra); congruence|]. right. split; [lra|]. destruct (Rle_dec (vy v) (vy u)) as [L2|L2]; auto. exfalso. assert (vlt u v = true) by (apply vlt_iff; unfold lexle; lra). congruence. Qed.
Lemma lexle_total u v : lexle u v \/ lexle v u. Proof. unfold lexle. lra. Qed.
Lemma loop_lex (l : list RV) : forall (l0 : list RV) mn mx st en, nth_error l0 st = Some mn -> nth_error l0 en = Some mx -> (st = en \/ mn <> mx) -> (forall v, In v l0 -> lexle mn v /\ lexle v mx) ->
  let (s, e) := loop_indexes l (length l0) mn mx st en in exists a b, nth_error (l0 ++ l) s = Some a /\ nth_error (l0 ++ l) e = Some b /\ (s = e \/ a <> b) /\ forall v, In v (l0 ++ l) -> lexle a v /\ lexle v b.
Proof.
  induction l as [|x l IH]; intros l0 mn mx st en E1 E2 NE HI; cbn [loop_indexes]; [rewrite app_nil_r; exists mn, mx; auto|].
  replace (l0 ++ x :: l) with ((l0 ++ [x]) ++ l) by now rewrite <- app_assoc. replace (S (length l0)) with (length (l0 ++ [x])) by (rewrite app_length; cbn; lia).
  assert (MM : lexle mn mx) by (apply HI; eapply nth_error_In; eauto).
  assert (K : forall i v, nth_error l0 i = Some v -> nth_error (l0 ++ [x]) i = Some v) by (intros i v E; rewrite nth_error_app1; [auto|apply nth_error_Some; congruence]).
  assert (KX : nth_error (l0 ++ [x]) (length l0) = Some x) by (rewrite nth_error_app2, Nat.sub_diag by lia; reflexivity).
  destruct (vlt x mn) eqn:L1.
  - apply vlt_iff in L1. apply IH; auto; [right; intros ->; contradiction|]. destruct (lexle_total mn x) as [X|X]; [contradiction|]. intros v Hv. apply in_app_iff in Hv as [Hv|[<-|[]]].
    + destruct (HI v Hv). split; [eapply lexle_trans; eauto|auto].
    + split; [apply lexle_refl|eapply lexle_trans; eauto].
  - apply vlt_false in L1. destruct (vlt mx x) eqn:L2.
    + apply vlt_iff in L2. apply IH; auto; [right; intros ->; contradiction|]. destruct (lexle_total x mx) as [X|X]; [contradiction|]. intros v Hv. apply in_app_iff in Hv as [Hv|[<-|[]]]; [|split; auto using lexle_refl]. destruct (HI v Hv). split; auto. eapply lexle_trans; eauto.
    + apply vlt_false in L2. apply IH; auto. intros v Hv. apply in_app_iff in Hv as [Hv|[<-|[]]]; auto.
Qed.
Lemma ends_lex (vs : list RV) : vs <> [] -> exists a b, nth_error vs (fst (ends vs)) = Some a /\ nth_error vs (snd (ends vs)) = Some b /\ (fst (ends vs) = snd (ends vs) \/ a <> b) /\ forall v, In v vs -> lexle a v /\ lexle v b.
Proof.
  destruct vs as [|v l]; [contradiction|]. intros _. unfold ends. pose proof (loop_lex l [v] v v 0 0 eq_refl eq_refl) as G. change (length [v]) with 1%nat in G. destruct (loop_indexes l 1 v v 0 0) as [s e]. cbn [fst snd]. apply G; [auto|]. intros u [<-|[]]. split; apply lexle_refl.
Qed.
Lemma lexle_antisym u v : lexle u v -> lexle v u -> u = v. Proof. unfold lexle. intros. apply vec_eq; lra. Qed.

(** ** the hull *)
Record Hull (tol : R) (vs hull : list RV) : Prop := {
  h_incl : incl hull vs; h_nodup : NoDup hull;
  h_conv : forall u w x, In (u, w) (ring hull) -> In x hull -> 0 <= turn u w x;
  h_all : tol = 0 -> forall u w x, In (u, w) (ring hull) -> In x vs -> 0 <= turn u w x;
  h_hull : tol = 0 -> forall x, In x vs -> in_hull hull x;
  h_near : forall x, In x vs -> in_hull hull x \/ line_near tol hull x }.
Lemma hull_one tol v vs : (forall x, In x vs -> x = v) -> In v vs -> Hull tol vs [v].
Proof.
  intros A I. assert (HH : forall x, In x vs -> in_hull [v] x) by (intros x Hx; rewrite (A x Hx); apply hull_vertex; cbn; auto).
  split; auto; [intros x [<-|[]]; exact I|repeat constructor; intros []| |].
  - intros u w x. cbn. intros [[= <- <-]|[]] [<-|[]]. unfold turn. lra.
  - intros _ u w x. cbn. intros [[= <- <-]|[]] Hx. rewrite (A x Hx). unfold turn. lra.
Qed.
Lemma hull_top tol vs a b rest chain : 0 <= tol -> Permutation vs (a :: b :: rest) -> a <> b -> (forall v, In v vs -> lexle a v /\ lexle v b) -> qh tol rest a b a chain -> Hull tol vs (a :: chain).
Proof.
  intros Ht P AB LX Q.
  assert (ST : exists L N R D cl cr, Permutation rest (L ++ N) /\ Permutation N (R ++ D) /\ (forall v, In v L -> tol * dist a b < - turn a b v) /\ (forall v, In v N -> - turn a b v <= tol * dist a b) /\
     (forall v, In v R -> tol * dist b a < - turn b a v) /\ (forall v, In v D -> - turn b a v <= tol * dist b a) /\ sub tol L a b cl /\ sub tol R b a cr /\ chain = cl ++ b :: cr).
  { inversion Q as [|S' a' p' b' L N R D cl cr PS PN FL FN FR FD SL SR]; subst.
    - exists [], [], [], [], [], []. repeat split; try (intros v []); try constructor.
    - rewrite Forall_forall in *. exists L, N, R, D, cl, cr. repeat split; auto; intros v Hv; try (apply out_iff; auto); try (apply out_not; auto). }
  destruct ST as (L & N & R & D & cl & cr & PS & PN & OL & ON & OR & OD & SL & SR & ->). clear Q.
  pose proof (Rmult_le_pos _ _ Ht (dist_ge0 a b)) as TA. pose proof (Rmult_le_pos _ _ Ht (dist_ge0 b a)) as TB.
  assert (SW : forall v, turn b a v = - turn a b v) by (intros; unfold turn; ring).
  assert (GL : Good tol a b L cl) by (apply (proj2 (qh_good tol Ht) _ _ _ _ SL); intros v Hv; specialize (OL v Hv); lra).
  assert (GR : Good tol b a R cr) by (apply (proj2 (qh_good tol Ht) _ _ _ _ SR); intros v Hv; specialize (OR v Hv); lra).
  assert (AV : In a vs) by (eapply Permutation_in; [symmetry; exact P|]; cbn; auto). assert (BV : In b vs) by (eapply Permutation_in; [symmetry; exact P|]; cbn; auto).
  assert (RV_ : forall v, In v rest -> In v vs) by (intros v Hv; eapply Permutation_in; [symmetry; exact P|]; cbn; auto).
  assert (LV : forall v, In v L -> In v vs) by (intros v Hv; apply RV_; eapply Permutation_in; [symmetry; exact PS|]; apply in_app_iff; auto).
  assert (NV : forall v, In v N -> In v vs) by (intros v Hv; apply RV_; eapply Permutation_in; [symmetry; exact PS|]; apply in_app_iff; auto).
  assert (RN : forall v, In v R -> In v N) by (intros v Hv; eapply Permutation_in; [symmetry; exact PN|]; apply in_app_iff; auto).
  assert (DN : forall v, In v D -> In v N) by (intros v Hv; eapply Permutation_in; [symmetry; exact PN|]; apply in_app_iff; auto).
  assert (CASES : forall v, In v vs -> v = a \/ v = b \/ In v L \/ In v R \/ In v D).
  { intros v Hv. eapply Permutation_in in Hv; [|exact P]. destruct Hv as [<-|[<-|Hv]]; auto. eapply Permutation_in in Hv; [|exact PS]. apply in_app_iff in Hv as [Hv|Hv]; [auto|]. eapply Permutation_in in Hv; [|exact PN]. apply in_app_iff in Hv. tauto. }
  assert (LXab : vx a <= vx b) by (destruct (LX b BV) as [[X|[X _]] _]; lra).
  assert (XX : forall v, In v vs -> vx a <= vx v <= vx b) by (intros v Hv; destruct (LX v Hv) as [[X|[X _]] [Y|[Y _]]]; lra).
  assert (FLAT : vx a = vx b -> forall u v w, In u vs -> In v vs -> In w vs -> turn u v w = 0) by (intros E u v w Hu Hv Hw; pose proof (XX u Hu); pose proof (XX v Hv); pose proof (XX w Hw); unfold turn; replace (vx v) with (vx u) by lra; replace (vx w) with (vx u) by lra; ring).
  assert (ML : forall u w, In (u, w) (steps (a :: cl ++ [b])) -> vx u <= vx w).
  { intros u w Huw. pose proof (g_mono _ _ _ _ _ GL 1 0) as M. assert (E : forall v, lin 1 0 v = vx v) by (intros; unfold lin; ring). specialize (M ltac:(rewrite !E; lra)). specialize (M ltac:(intros v Hv; rewrite !E; apply XX; auto) u w Huw). now rewrite !E in M. }
  assert (MR : forall u w, In (u, w) (steps (b :: cr ++ [a])) -> vx w <= vx u).
  { intros u w Huw. pose proof (g_mono _ _ _ _ _ GR (-1) 0) as M. assert (E : forall v, lin (-1) 0 v = - vx v) by (intros; unfold lin; ring). specialize (M ltac:(rewrite !E; lra)). specialize (M ltac:(intros v Hv; rewrite !E; specialize (XX v (NV v (RN v Hv))); lra) u w Huw). rewrite !E in M. lra. }
  assert (IL := g_incl _ _ _ _ _ GL). assert (IR := g_incl _ _ _ _ _ GR).
  assert (CV : incl (a :: cl ++ b :: cr) vs) by (intros x [<-|Hx]; [exact AV|]; apply in_app_iff in Hx as [Hx|[<-|Hx]]; auto).
  assert (SPLIT : forall e, In e (ring (a :: cl ++ b :: cr)) <-> In e (steps (a :: cl ++ [b])) \/ In e (steps (b :: cr ++ [a]))).
  { intros e. rewrite ring_steps. replace (a :: (cl ++ b :: cr) ++ [a]) with ((a :: cl) ++ b :: cr ++ [a]) by (cbn [app]; rewrite <- app_assoc; reflexivity). apply steps_app. }
  assert (EV : forall u w, In (u, w) (steps (a :: cl ++ [b])) \/ In (u, w) (steps (b :: cr ++ [a])) -> In u vs /\ In w vs).
  { assert (G : forall (l : list RV) u w, In (u, w) (steps l) -> In u l /\ In w l) by (clear; intros l u w E; unfold steps in E; split; [eapply in_combine_l; eauto|]; apply in_combine_r in E; destruct l; [destruct E|right; exact E]).
    intros u w [E|E]; apply G in E as [E1 E2]; split; apply CV; cbn [In] in *; rewrite in_app_iff in *; cbn [In] in *; tauto. }
  assert (XL : forall u w x, In (u, w) (steps (a :: cl ++ [b])) -> In x vs -> 0 <= turn a b x -> 0 <= turn u w x).
  { intros u w x Huw Hx Hs. destruct (EV u w (or_introl Huw)) as [Eu Ew]. destruct (Req_dec (vx a) (vx b)) as [E|E]; [rewrite (FLAT E u w x) by auto; lra|].
    assert (F1 := g_conv _ _ _ _ _ GL u w a Huw ltac:(cbn; auto)). assert (F2 := g_conv _ _ _ _ _ GL u w b Huw ltac:(right; apply in_app_iff; cbn; auto)). specialize (ML u w Huw). specialize (XX x Hx).
    assert (I : (vx b - vx a) * turn u w x = (vx b - vx x) * turn u w a + (vx x - vx a) * turn u w b + turn a b x * (vx w - vx u)) by (unfold turn; ring).
    apply Rmult_le_reg_l with (vx b - vx a); [lra|]. rewrite I, Rmult_0_r. repeat apply Rplus_le_le_0_compat; apply Rmult_le_pos; lra. }
  assert (XR : forall u w x, In (u, w) (steps (b :: cr ++ [a])) -> In x vs -> 0 <= turn b a x -> 0 <= turn u w x).
  { intros u w x Huw Hx Hs. destruct (EV u w (or_intror Huw)) as [Eu Ew]. destruct (Req_dec (vx a) (vx b)) as [E|E]; [rewrite (FLAT E u w x) by auto; lra|].
    assert (F1 := g_conv _ _ _ _ _ GR u w b Huw ltac:(cbn; auto)). assert (F2 := g_conv _ _ _ _ _ GR u w a Huw ltac:(right; apply in_app_iff; cbn; auto)). specialize (MR u w Huw). specialize (XX x Hx).
    assert (I : (vx b - vx a) * turn u w x = (vx b - vx x) * turn u w a + (vx x - vx a) * turn u w b + turn b a x * (vx u - vx w)) by (unfold turn; ring).
    apply Rmult_le_reg_l with (vx b - vx a); [lra|]. rewrite I, Rmult_0_r. repeat apply Rplus_le_le_0_compat; apply Rmult_le_pos; lra. }
  assert (LN : forall v, In v L -> 0 <= turn b a v) by (intros v Hv; specialize (OL v Hv); rewrite SW; lra).
  assert (RP : forall v, In v R -> 0 <= turn a b v) by (intros v Hv; specialize (OR v Hv); rewrite SW in OR; lra).
  assert (TAA : forall v, turn v b b = 0 /\ turn v b v = 0 /\ turn v a a = 0 /\ turn v a v = 0) by (intros; unfold turn; repeat split; ring).
  assert (INL : incl (a :: cl ++ [b]) (a :: cl ++ b :: cr)) by (intros x Hx; cbn [In] in *; rewrite in_app_iff in *; cbn [In] in *; tauto).
  assert (INR : incl (b :: cr ++ [a]) (a :: cl ++ b :: cr)) by (intros x Hx; cbn [In] in *; rewrite in_app_iff in *; cbn [In] in *; tauto).
  split.
  - exact CV.
  - constructor.
    + intros Hx. apply in_app_iff in Hx as [Hx|[Hx|Hx]]; [|congruence|].
      * specialize (OL a (IL a Hx)). unfold turn in OL. lra.
      * specialize (OR a (IR a Hx)). unfold turn in OR. lra.
    + apply NoDup_app_intro; [apply GL|constructor; [|apply GR]|].
      * intros Hx. specialize (OR b (IR b Hx)). unfold turn in OR. lra.
      * intros x H1 [<-|H2]; [specialize (OL b (IL b H1)); unfold turn in OL; lra|]. specialize (OL x (IL x H1)). specialize (OR x (IR x H2)). rewrite SW in OR. lra.
  - intros u w x Huw Hx. apply SPLIT in Huw. assert (Hv := CV x Hx). destruct Huw as [Huw|Huw].
    + destruct Hx as [<-|Hx]; [apply (g_conv _ _ _ _ _ GL); cbn; auto|]. apply in_app_iff in Hx as [Hx|[<-|Hx]].
      * apply (g_conv _ _ _ _ _ GL); auto. right. apply in_app_iff. auto.
      * apply (g_conv _ _ _ _ _ GL); auto. right. apply in_app_iff. cbn. auto.
      * apply XL; auto.
    + destruct Hx as [<-|Hx]; [apply (g_conv _ _ _ _ _ GR); auto; right; apply in_app_iff; cbn; auto|]. apply in_app_iff in Hx as [Hx|[<-|Hx]].
      * apply XR; auto.
      * apply (g_conv _ _ _ _ _ GR); cbn; auto.
      * apply (g_conv _ _ _ _ _ GR); auto. right. apply in_app_iff. auto.
  - intros T0 u w x Huw Hx. apply SPLIT in Huw.
    assert (ZD : forall v, In v D -> turn a b v = 0) by (intros v Hv; specialize (ON v (DN v Hv)); specialize (OD v Hv); rewrite SW in OD; rewrite T0 in *; lra).
    destruct Huw as [Huw|Huw]; destruct (CASES x Hx) as [->|[->|[Hc|[Hc|Hc]]]].
    + apply (g_conv _ _ _ _ _ GL); cbn; auto.
    + apply (g_conv _ _ _ _ _ GL); auto. right. apply in_app_iff. cbn. auto.
    + now apply (g_all _ _ _ _ _ GL).
    + apply XL; auto.
    + apply XL; auto. rewrite (ZD x Hc). lra.
    + apply (g_conv _ _ _ _ _ GR); auto. right. apply in_app_iff. cbn. auto.
    + apply (g_conv _ _ _ _ _ GR); cbn; auto.
    + apply XR; auto.
    + now apply (g_all _ _ _ _ _ GR).
    + apply XR; auto. rewrite SW, (ZD x Hc). lra.
  - intros T0 x Hx.
    assert (ZD : forall v, In v D -> turn a b v = 0) by (intros v Hv; specialize (ON v (DN v Hv)); specialize (OD v Hv); rewrite SW in OD; rewrite T0 in *; lra).
    assert (IA : in_hull (a :: cl ++ b :: cr) a) by (apply hull_vertex; cbn; auto). assert (IB : in_hull (a :: cl ++ b :: cr) b) by (apply hull_vertex; right; apply in_app_iff; cbn; auto).
    destruct (CASES x Hx) as [->|[->|[Hc|[Hc|Hc]]]]; auto.
    + apply (hull_incl _ _ _ INL). now apply (g_hull _ _ _ _ _ GL).
    + apply (hull_incl _ _ _ INR). now apply (g_hull _ _ _ _ _ GR).
    + apply hull_between with a b; auto. specialize (ZD x Hc). destruct (Req_dec (vx a) (vx b)) as [E|E].
      * assert (LY : vy a < vy b) by (destruct (LX b BV) as [[X|[_ X]] _]; [lra|]; destruct (Req_dec (vy a) (vy b)); [exfalso; apply AB, vec_eq; auto|lra]).
        destruct (LX x Hx) as [Y1 Y2]. unfold lexle in Y1, Y2. specialize (XX x Hx). exists ((vy x - vy a) / (vy b - vy a)). split.
        -- split; [apply Rmult_le_pos; [lra|]; left; apply Rinv_0_lt_compat; lra|]. apply Rmult_le_reg_r with (vy b - vy a); [lra|]. unfold Rdiv. rewrite Rmult_assoc, Rinv_l by lra. lra.
        -- apply vec_eq; unfold seg_point; cbn [vx vy]; [replace (vx x) with (vx b) by lra; rewrite E; ring|field; lra].
      * specialize (XX x Hx). exists ((vx x - vx a) / (vx b - vx a)). split.
        -- split; [apply Rmult_le_pos; [lra|]; left; apply Rinv_0_lt_compat; lra|]. apply Rmult_le_reg_r with (vx b - vx a); [lra|]. unfold Rdiv. rewrite Rmult_assoc, Rinv_l by lra. lra.
        -- apply vec_eq; unfold seg_point; cbn [vx vy]; [field; lra|]. unfold turn in ZD. apply Rmult_eq_reg_l with (vx b - vx a); [|lra]. field_simplify; [|lra]. lra.
  - intros x Hx. assert (IA : in_hull (a :: cl ++ b :: cr) a) by (apply hull_vertex; cbn; auto). assert (IB : in_hull (a :: cl ++ b :: cr) b) by (apply hull_vertex; right; apply in_app_iff; cbn; auto).
    destruct (CASES x Hx) as [->|[->|[Hc|[Hc|Hc]]]]; auto.
    + destruct (g_near _ _ _ _ _ GL x Hc); [left; now apply (hull_incl _ _ _ INL)|right; now apply (near_incl _ _ _ _ INL)].
    + destruct (g_near _ _ _ _ _ GR x Hc); [left; now apply (hull_incl _ _ _ INR)|right; now apply (near_incl _ _ _ _ INR)].
    + right. exists a, b. split; [cbn; auto|]. split; [right; apply in_app_iff; cbn; auto|]. split; [exact AB|]. specialize (ON x (DN x Hc)). specialize (OD x Hc). rewrite SW in OD. apply Rabs_le.
      replace (dist b a) with (dist a b) in OD by (unfold dist, dist2; f_equal; ring). lra.
Qed.
Lemma hull_ok tol vs : 0 <= tol -> vs <> [] -> exists arr n first, convex_hull vs tol = Some (arr, n, first) /\ length arr = length vs /\ (n <= length vs)%nat /\
  Hull tol vs (firstn n arr) /\ nth_error vs first = hd_error arr /\ (1 <= n)%nat.
Proof.
  intros Ht Hn. destruct (ends_lex vs Hn) as (a & b & Ea & Eb & NE & LX). destruct (convex_hull_spec vs tol Hn) as [[E C]|[E (a' & b' & rest & chain & junk & Ea' & Eb' & P & Q & LN & C)]].
  - rewrite C. exists vs, 1%nat, 0%nat. split; [reflexivity|]. split; [reflexivity|]. assert (AB : a = b) by congruence. subst b. destruct vs as [|v l]; [contradiction|].
    split; [cbn; lia|]. assert (A : forall x, In x (v :: l) -> x = a) by (intros x Hx; destruct (LX x Hx); now apply lexle_antisym). cbn [firstn hd_error nth_error]. split; [|split; [reflexivity|lia]]. apply hull_one; [|cbn; auto]. intros x Hx. rewrite (A x Hx). symmetry. apply A. cbn. auto.
  - rewrite C. rewrite Ea in Ea'. rewrite Eb in Eb'. injection Ea' as <-. injection Eb' as <-. exists (a :: chain ++ junk), (S (length chain)), (fst (ends vs)). split; [reflexivity|]. assert (LP := Permutation_length P). cbn [length] in *.
    split; [rewrite app_length; lia|]. split; [lia|]. split; [|split; [rewrite Ea; reflexivity|lia]]. cbn [firstn]. rewrite firstn_app, Nat.sub_diag, firstn_all. cbn [firstn]. rewrite app_nil_r.
    eapply hull_top; eauto. now destruct NE.
Qed.
(** ** for the statements *)
Lemma line_dist tol (u w x : RV) : u <> w -> Rabs (turn u w x) <= tol * dist u w -> exists t, dist x (vplus u (vscale t (vminus w u))) <= tol.
Proof.
  intros NE D. set (d := dist u w) in *. assert (Dp : 0 < d).
  { pose proof (dist_ge0 u w) as G. fold d in G. destruct (Req_dec d 0) as [Z|Z]; [|lra]. exfalso. apply NE. unfold d, dist in Z. apply sqrt_eq_0 in Z; unfold dist2 in *.
    - pose proof (Rle_0_sqr (vx u - vx w)) as S1; pose proof (Rle_0_sqr (vy u - vy w)) as S2; unfold Rsqr in S1, S2. assert (Z3 : (vx u - vx w) * (vx u - vx w) = 0) by lra. assert (Z4 : (vy u - vy w) * (vy u - vy w) = 0) by lra. apply Rmult_integral in Z3. apply Rmult_integral in Z4. apply vec_eq; lra.
    - pose proof (Rle_0_sqr (vx u - vx w)) as S1; pose proof (Rle_0_sqr (vy u - vy w)) as S2; unfold Rsqr in S1, S2. lra. }
  assert (DD : d * d = (vx w - vx u) * (vx w - vx u) + (vy w - vy u) * (vy w - vy u)).
  { unfold d, dist. rewrite sqrt_sqrt; [unfold dist2; ring|]. unfold dist2. pose proof (Rle_0_sqr (vx u - vx w)) as S1; pose proof (Rle_0_sqr (vy u - vy w)) as S2; unfold Rsqr in S1, S2. lra. }
  exists (inner (vminus x u) (vminus w u) / (d * d)). set (q := vplus _ _).
  assert (E : dist2 x q = (turn u w x / d) * (turn u w x / d)).
  { assert (D2 : d * d <> 0) by (intros Z; apply Rmult_integral in Z; lra).
    apply Rmult_eq_reg_l with (d * d); [|exact D2]. replace (d * d * (turn u w x / d * (turn u w x / d))) with (turn u w x * turn u w x) by (field; lra).
    unfold q, dist2, vplus, vscale, vminus, inner, turn. cbn [vx vy]. apply Rmult_eq_reg_l with (d * d); [|exact D2]. rewrite DD in *. field. exact D2. }
  assert (T0 : 0 <= tol) by (pose proof (Rabs_pos (turn u w x)); apply Rmult_le_reg_r with d; lra).
  unfold dist. rewrite E. rewrite sqrt_Rsqr_abs || (change (turn u w x / d * (turn u w x / d)) with (Rsqr (turn u w x / d)); rewrite sqrt_Rsqr_abs).
  unfold Rdiv. rewrite Rabs_mult, (Rabs_pos_eq (/ d)) by (left; now apply Rinv_0_lt_compat). apply Rmult_le_reg_r with d; [lra|]. rewrite Rmult_assoc, Rinv_l by lra. lra.
Qed.
Lemma hull1 (p x : RV) : in_hull [p] x -> x = p.
Proof. induction 1 as [v [<-|[]]|a b x _ -> _ -> (t & _ & ->)]; [reflexivity|]. apply vec_eq; unfold seg_point; cbn [vx vy]; ring. Qed.
Lemma hull2 (p q x : RV) : in_hull [p; q] x -> exists t, x = vplus p (vscale t (vminus q p)).
Proof.
  induction 1 as [v [<-|[<-|[]]]|a b x _ [s ->] _ [t ->] (k & _ & ->)]; [exists 0|exists 1|exists (s + k * (t - s))]; apply vec_eq; unfold seg_point, vplus, vscale, vminus; cbn [vx vy]; ring.
Qed.
Lemma ring_in (l : list RV) u w : In (u, w) (ring l) -> In u l /\ In w l.
Proof.
  destruct l as [|a l]; [intros []|]. intros E. apply ring_steps in E. unfold steps in E. split.
  - pose proof (in_combine_l _ _ _ _ E) as X. cbn [In] in *. rewrite in_app_iff in X. cbn [In] in X. tauto.
  - pose proof (in_combine_r _ _ _ _ E) as X. cbn [tl] in X. rewrite in_app_iff in X. cbn [In] in *. tauto.
Qed.
Lemma ring_loop (l : list RV) u : In (u, u) (ring l) -> NoDup l -> exists p, l = [p].
Proof.
  assert (G : forall (l : list RV) u, NoDup l -> In (u, u) (steps l) -> False).
  { clear. induction l as [|a l IH]; intros u ND; [intros []|]. destruct l as [|b l]; [intros []|]. inversion ND; subst. intros [[= -> ->]|E]; [apply H1; cbn; auto|]. eapply IH; eauto. }
  destruct l as [|a l]; [intros []|]. intros E ND. apply ring_steps in E. destruct l as [|b l]; [eauto|]. exfalso. destruct E as [[= -> ->]|E]; [inversion ND; cbn in *; tauto|]. inversion ND; subst. apply (G ((b :: l) ++ [a]) u); [|exact E].
  apply NoDup_app_intro; auto; [repeat constructor; intros []|]. intros x Hx [->|[]]. auto.
Qed.
