(** Segment queries of a space: pruning the trees loses nothing. *)
From Coq Require Import Reals ZArith Bool List Arith Lia Lra Permutation.
From Verif Require Import Num Spec SpecShapes SpecIndex SpecQuery.
From Verif.Model Require Import Vector BB BBTree Transform Shapes Handlers Collision Query.
From Verif.Proofs Require Import RTac Util BBOrder BBTreeInv BBTreePairs BBTreeHist BBTreeTop Geom ShapePf PolyPf PolyPf2 SegQPf QueryPf QueryGeo.
Import ListNotations.
Local Open Scope R_scope.

Lemma subbox_in (x y : BB R) p : subbox x y -> in_box x p -> in_box y p.
Proof. unfold subbox. unR. intros (A & B & C & D) E. apply in_box_R in E. apply in_box_R. rbool. lra. Qed.
Lemma in_ordered (x : BB R) p : in_box x p -> ordered x.
Proof. intros E. apply in_box_R in E. apply ordered_R. lra. Qed.
Lemma query_le (x : BB R) a b s : 0 <= s <= 1 -> in_box x (seg_point a b s) -> bb_segment_query x a b <= s.
Proof. intros S I. destruct (bb_segment_query_hit x a b (in_ordered _ _ I)) as (_ & _ & Q); [eauto|]. auto. Qed.

Section Seg.
Variables (W : nat -> QShape R) (a b : RV) (r : R) (f : Filter).
Notation sq id := (segment_query (class_of (W id)) a b r).
Notation best out := (si_alpha (snd out)).
Definition hits (id : nat) : Prop := visible f (W id) /\ si_hit (sq id) = true.
(** the fraction of a hit is a point of the segment inside the box *)
Definition hit_in (x : BB R) (id : nat) : Prop := hits id -> 0 <= si_alpha (sq id) <= 1 /\ in_box x (seg_point a b (si_alpha (sq id))).
Definition found (ids : list nat) (out0 out : option nat * SegInfo R) : Prop :=
  (out = out0 \/ exists id, In id ids /\ hits id /\ out = (Some id, sq id) /\ si_alpha (sq id) < best out0) /\
  (forall id, In id ids -> hits id -> best out <= si_alpha (sq id)).
Lemma found_le ids o o' : found ids o o' -> best o' <= best o.
Proof. intros [[->|(id & _ & _ & -> & L)] _]; cbn [snd]; lra. Qed.
Lemma found_app l m o o1 o2 : found l o o1 -> found m o1 o2 -> found (l ++ m) o o2.
Proof.
  intros F1 F2. pose proof (found_le _ _ _ F1) as L1. pose proof (found_le _ _ _ F2) as L2. destruct F1 as [A1 B1], F2 as [A2 B2]. split.
  - destruct A2 as [->|(id & I & Hh & -> & L)].
    + destruct A1 as [->|(id & I & Q)]; [auto|right; exists id; rewrite in_app_iff; auto].
    + right. exists id. rewrite in_app_iff. cbn [snd] in *. split; [auto|]. split; [exact Hh|]. split; [reflexivity|lra].
  - intros id I Hh. apply in_app_iff in I as [I|I]; [pose proof (B1 id I Hh); lra|auto].
Qed.
Lemma found_swap l m o o' : found (l ++ m) o o' -> found (m ++ l) o o'.
Proof.
  intros [A B]. split.
  - destruct A as [A|(id & I & Q)]; [auto|right; exists id; split; [apply in_app_iff in I; apply in_app_iff; tauto|auto]].
  - intros id I. apply B. apply in_app_iff in I. apply in_app_iff. tauto.
Qed.
Lemma first_leaf id o : let (o', e') := first_step W a b r f o id in found [id] o o' /\ e' = best o'.
Proof.
  unfold first_step. split; [|reflexivity]. unfold found, hits.
  destruct (vis_dec W f id) as [[A B]|N].
  - unfold accepts in A. rewrite A, B. cbn [negb andb]. unR. destruct (si_hit (sq id)) eqn:Hh; cbn [andb].
    + destruct (Rltb (si_alpha (sq id)) (best o)) eqn:L; rbool.
      * split; [right; exists id; unfold visible, accepts; cbn [In]; auto 10|]. intros i [<-|[]] _. cbn [snd]. lra.
      * split; [auto|]. intros i [<-|[]] _. lra.
    + split; [auto|]. intros i [<-|[]] [_ Q]. congruence.
  - assert (E : negb (reject (qs_filter (W id)) f) && negb (qs_sensor (W id)) = false). { destruct (reject (qs_filter (W id)) f) eqn:A; [reflexivity|]. destruct (qs_sensor (W id)) eqn:B; [reflexivity|]. exfalso. apply N. split; auto. }
    rewrite E. split; [auto|]. intros i [<-|[]] [Q _]. contradiction.
Qed.
Lemma prune c o : wf c -> (forall l, In l (leaves c) -> hit_in (lbb l) (lid l)) -> best o <= bb_segment_query (tbb c) a b -> found (map lid (leaves c)) o o.
Proof.
  intros Wf Hin L. split; [auto|]. intros id I Hh. apply in_map_iff in I as (l & <- & I). destruct (Hin l I Hh) as [S B].
  pose proof (query_le (tbb c) a b _ S (subbox_in _ _ _ (wf_leaf_sub c l Wf I) B)). lra.
Qed.
Lemma first_tree (t : tree R) : wf t -> (forall l, In l (leaves t) -> hit_in (lbb l) (lid l)) -> forall o,
  let (o', e') := subtree_segment_query (first_step W a b r f) t a b o (best o) in found (map lid (leaves t)) o o' /\ e' = best o'.
Proof.
  induction t as [l|x ca IHa cb IHb]; intros Wf Hin o.
  - cbn [subtree_segment_query leaves map]. apply first_leaf.
  - destruct Wf as (_ & _ & Wa & Wb). cbn [leaves] in Hin.
    assert (Ha : forall l, In l (leaves ca) -> hit_in (lbb l) (lid l)) by (intros; apply Hin; apply in_app_iff; auto). assert (Hb : forall l, In l (leaves cb) -> hit_in (lbb l) (lid l)) by (intros; apply Hin; apply in_app_iff; auto).
    assert (V : forall c, wf c -> (forall l, In l (leaves c) -> hit_in (lbb l) (lid l)) ->
      (forall o, let (o', e') := subtree_segment_query (first_step W a b r f) c a b o (best o) in found (map lid (leaves c)) o o' /\ e' = best o') -> forall o,
      let (o', e') := (if Rltb (bb_segment_query (tbb c) a b) (best o) then let '(st', rr) := subtree_segment_query (first_step W a b r f) c a b o (best o) in (st', Rmin (best o) rr) else (o, best o)) in found (map lid (leaves c)) o o' /\ e' = best o').
    { intros c Wc Hc IH o'. destruct (Rltb _ _) eqn:L; rbool; [|split; [apply prune; auto|reflexivity]]. specialize (IH o'). destruct (subtree_segment_query _ c a b o' (best o')) as [o2 e2]. destruct IH as [F ->]. split; [exact F|]. pose proof (found_le _ _ _ F). rewrite Rmin_right; lra. }
    assert (X : let (o', e') := subtree_segment_query (first_step W a b r f) (Node x ca cb) a b o (best o) in found (map lid (leaves ca) ++ map lid (leaves cb)) o o' /\ e' = best o').
    { cbn [subtree_segment_query]. unR. set (tA := bb_segment_query (tbb ca) a b). set (tB := bb_segment_query (tbb cb) a b). pose proof (V ca Wa Ha (IHa Wa Ha)) as VA. pose proof (V cb Wb Hb (IHb Wb Hb)) as VB. fold tA in VA. fold tB in VB. destruct (Rltb tA tB).
      - specialize (VA o). destruct (if Rltb tA (best o) then _ else _) as [o1 e1]. destruct VA as [F1 ->]. specialize (VB o1). destruct (if Rltb tB (best o1) then _ else _) as [o2 e2]. destruct VB as [F2 ->]. split; [|reflexivity]. eapply found_app; eauto.
      - specialize (VB o). destruct (if Rltb tB (best o) then _ else _) as [o1 e1]. destruct VB as [F1 ->]. specialize (VA o1). destruct (if Rltb tA (best o1) then _ else _) as [o2 e2]. destruct VA as [F2 ->]. split; [|reflexivity]. apply found_swap. eapply found_app; eauto. }
    destruct (subtree_segment_query _ (Node x ca cb) a b o (best o)) as [o' e']. cbn [leaves]. rewrite map_app. exact X.
Qed.
Lemma first_otree (t : option (tree R)) : wfo t -> (forall l, In l (oleaves t) -> hit_in (lbb l) (lid l)) -> forall o, found (map lid (oleaves t)) o (ix_segment_query (first_step W a b r f) t a b o (best o)).
Proof.
  intros Wf Hin o. destruct t as [t|]; cbn [ix_segment_query oleaves] in *; [|split; [auto|intros ? []]].
  pose proof (first_tree t Wf Hin o) as X. destruct (subtree_segment_query _ t a b o (best o)). apply X.
Qed.
Lemma leaf_in (e0 : env R) h : valid e0 h -> (forall d id x, In id (members d h) -> indexed e0 d id h = Some x -> hit_in x id) ->
  forall d l, In l (oleaves (get_tree d (run e0 h))) -> hit_in (lbb l) (lid l).
Proof.
  intros Hv HI d l I Hh. destruct (run_agrees e0 h Hv) as [Inv Hids Hbox]. destruct (Hbox d l I) as (x & X & S). destruct (HI d (lid l) x) as [A B]; auto; [apply Hids; now apply in_map|]. split; [exact A|]. eapply subbox_in; eauto.
Qed.
Theorem first_ok (e0 : env R) h : valid e0 h -> (forall d id x, In id (members d h) -> indexed e0 d id h = Some x -> hit_in x id) ->
  found (members false h ++ members true h) (None, blank b) (segment_query_first W (run e0 h) a b r f).
Proof.
  intros Hv HI. pose proof (leaf_in e0 h Hv HI) as Hin. destruct (run_agrees e0 h Hv) as [Inv Hids Hbox].
  assert (D : forall d o, found (members d h) o (ix_segment_query (first_step W a b r f) (get_tree d (run e0 h)) a b o (best o))).
  { intros d o. destruct (first_otree _ (wf_get d _ (proj1 Inv)) (Hin d) o) as [A B]. split.
    - destruct A as [A|(id & I & Q)]; [auto|right; exists id; split; [now apply Hids|auto]].
    - intros id I. apply B. now apply Hids. }
  unfold segment_query_first. pose proof (D false (None, blank b)) as D1. cbn [get_tree snd blank si_alpha] in D1. change (mkSI false b vzero none_) with (blank b). eapply found_app; [exact D1|]. apply (D true).
Qed.

(** ** every hit *)
Definition call (id : nat) : list (nat * SegInfo R) := if negb (reject (qs_filter (W id)) f) then (if si_hit (sq id) then [(id, sq id)] else []) else [].
(** [calls] are the calls for a list of shapes of which those that can be hit early are in [ids] *)
Definition walked (ids : list nat) (out0 out : list (nat * SegInfo R)) : Prop := exists vis, out = out0 ++ flat_map call vis /\ (forall id, In id vis -> In id ids) /\ (NoDup ids -> NoDup vis) /\ (forall id, In id ids -> accepts f (W id) -> si_hit (sq id) = true -> si_alpha (sq id) < 1 -> In id vis).
Definition hit_in_all (x : BB R) (id : nat) : Prop := accepts f (W id) -> si_hit (sq id) = true -> 0 <= si_alpha (sq id) <= 1 /\ in_box x (seg_point a b (si_alpha (sq id))).
Lemma walked_app l m o o1 o2 : walked l o o1 -> walked m o1 o2 -> walked (l ++ m) o o2.
Proof.
  intros (v & -> & A1 & N1 & B1) (w & -> & A2 & N2 & B2). exists (v ++ w). rewrite flat_map_app, app_assoc. split; [reflexivity|]. split; [|split].
  - intros id I. apply in_app_iff in I. apply in_app_iff. destruct I; auto.
  - intros N. apply nodup_app_iff in N as (Nl & Nm & D). apply nodup_join; auto. intros x X Y. apply (D x); auto.
  - intros id I. apply in_app_iff in I. rewrite in_app_iff. destruct I; auto.
Qed.
Lemma walked_perm l m o o' : Permutation l m -> walked l o o' -> walked m o o'.
Proof. intros P (v & E & A & N & B). exists v. split; [exact E|]. split; [intros id I; eapply Permutation_in; eauto|]. split; [intros Q; apply N; eapply Permutation_NoDup; [apply Permutation_sym|]; eauto|]. intros id I. apply B. eapply Permutation_in; [apply Permutation_sym|]; eauto. Qed.
Lemma walked_none c o : wf c -> (forall l, In l (leaves c) -> hit_in_all (lbb l) (lid l)) -> 1 <= bb_segment_query (tbb c) a b -> walked (map lid (leaves c)) o o.
Proof.
  intros Wf Hin L. exists []. cbn [flat_map]. rewrite app_nil_r. split; [reflexivity|]. split; [intros ? []|]. split; [intros; constructor|]. intros id I Ac Hh Lt. exfalso. apply in_map_iff in I as (l & <- & I). destruct (Hin l I Ac Hh) as [S B].
  pose proof (query_le (tbb c) a b _ S (subbox_in _ _ _ (wf_leaf_sub c l Wf I) B)). lra.
Qed.
Lemma all_leaf id o : let (o', e') := segment_step W a b r f o id in walked [id] o o' /\ e' = 1.
Proof.
  unfold segment_step. split; [|unR; reflexivity]. exists [id]. cbn [flat_map]. rewrite app_nil_r. split; [|split; [auto|split; [intros _; constructor; [intros []|constructor]|intros i I _ _ _; exact I]]].
  unfold call. destruct (negb _); [|now rewrite app_nil_r]. destruct (si_hit (sq id)); [reflexivity|now rewrite app_nil_r]. 
Qed.
Lemma all_tree (t : tree R) : wf t -> (forall l, In l (leaves t) -> hit_in_all (lbb l) (lid l)) -> forall o,
  let (o', e') := subtree_segment_query (segment_step W a b r f) t a b o 1 in walked (map lid (leaves t)) o o' /\ e' = 1.
Proof.
  induction t as [l|x ca IHa cb IHb]; intros Wf Hin o.
  - cbn [subtree_segment_query leaves map]. apply all_leaf.
  - destruct Wf as (_ & _ & Wa & Wb). cbn [leaves] in Hin.
    assert (Ha : forall l, In l (leaves ca) -> hit_in_all (lbb l) (lid l)) by (intros; apply Hin; apply in_app_iff; auto). assert (Hb : forall l, In l (leaves cb) -> hit_in_all (lbb l) (lid l)) by (intros; apply Hin; apply in_app_iff; auto).
    assert (V : forall c, wf c -> (forall l, In l (leaves c) -> hit_in_all (lbb l) (lid l)) ->
      (forall o, let (o', e') := subtree_segment_query (segment_step W a b r f) c a b o 1 in walked (map lid (leaves c)) o o' /\ e' = 1) -> forall o,
      let (o', e') := (if Rltb (bb_segment_query (tbb c) a b) 1 then let '(st', rr) := subtree_segment_query (segment_step W a b r f) c a b o 1 in (st', Rmin 1 rr) else (o, 1)) in walked (map lid (leaves c)) o o' /\ e' = 1).
    { intros c Wc Hc IH o'. destruct (Rltb _ _) eqn:L; rbool; [|split; [apply walked_none; auto|reflexivity]]. specialize (IH o'). destruct (subtree_segment_query _ c a b o' 1) as [o2 e2]. destruct IH as [F ->]. split; [exact F|]. rewrite Rmin_right; lra. }
    assert (X : let (o', e') := subtree_segment_query (segment_step W a b r f) (Node x ca cb) a b o 1 in walked (map lid (leaves ca) ++ map lid (leaves cb)) o o' /\ e' = 1).
    { cbn [subtree_segment_query]. unR. set (tA := bb_segment_query (tbb ca) a b). set (tB := bb_segment_query (tbb cb) a b). pose proof (V ca Wa Ha (IHa Wa Ha)) as VA. pose proof (V cb Wb Hb (IHb Wb Hb)) as VB. fold tA in VA. fold tB in VB. destruct (Rltb tA tB).
      - specialize (VA o). destruct (if Rltb tA 1 then _ else _) as [o1 e1]. destruct VA as [F1 ->]. specialize (VB o1). destruct (if Rltb tB 1 then _ else _) as [o2 e2]. destruct VB as [F2 ->]. split; [|reflexivity]. eapply walked_app; eauto.
      - specialize (VB o). destruct (if Rltb tB 1 then _ else _) as [o1 e1]. destruct VB as [F1 ->]. specialize (VA o1). destruct (if Rltb tA 1 then _ else _) as [o2 e2]. destruct VA as [F2 ->]. split; [|reflexivity]. eapply walked_perm; [apply Permutation_app_comm|]. eapply walked_app; eauto. }
    destruct (subtree_segment_query _ (Node x ca cb) a b o 1) as [o' e']. cbn [leaves]. rewrite map_app. exact X.
Qed.
Lemma all_otree (t : option (tree R)) : wfo t -> (forall l, In l (oleaves t) -> hit_in_all (lbb l) (lid l)) -> forall o, walked (map lid (oleaves t)) o (ix_segment_query (segment_step W a b r f) t a b o 1).
Proof.
  intros Wf Hin o. destruct t as [t|]; cbn [ix_segment_query oleaves] in *; [|exists []; cbn; rewrite app_nil_r; repeat split; auto; try constructor; intros ? []].
  pose proof (all_tree t Wf Hin o) as X. destruct (subtree_segment_query _ t a b o 1). apply X.
Qed.
Theorem all_ok (e0 : env R) h : valid e0 h -> (forall d id x, In id (members d h) -> indexed e0 d id h = Some x -> hit_in_all x id) -> let calls := segment_query_all W (run e0 h) a b r f in
  NoDup (map fst calls) /\ (forall id i, In (id, i) calls -> In id (all_members h) /\ accepts f (W id) /\ si_hit (sq id) = true /\ i = sq id) /\
  (forall id, In id (all_members h) -> accepts f (W id) -> si_hit (sq id) = true -> si_alpha (sq id) < 1 -> In (id, sq id) calls).
Proof.
  intros Hv HI. destruct (run_agrees e0 h Hv) as [Inv Hids Hbox].
  assert (Hin : forall d l, In l (oleaves (get_tree d (run e0 h))) -> hit_in_all (lbb l) (lid l)).
  { intros d l I Ac Hh. destruct (Hbox d l I) as (x & X & S). destruct (HI d (lid l) x) as [A B]; auto; [apply Hids; now apply in_map|]. split; [exact A|]. eapply subbox_in; eauto. }
  assert (D : forall d o, walked (members d h) o (ix_segment_query (segment_step W a b r f) (get_tree d (run e0 h)) a b o 1)).
  { intros d o. eapply walked_perm; [apply (leaves_members e0 d h Hv)|]. apply all_otree; [apply (wf_get d _ (proj1 Inv))|apply Hin]. }
  unfold segment_query_all. pose proof (walked_app _ _ _ _ _ (D false []) (D true _)) as (vis & E & S & N & C). cbn [get_tree] in E. unR. rewrite E. cbn [app].
  assert (NV : NoDup vis). { apply N. apply nodup_join; try (apply (nodup_members e0); exact Hv). intros x X Y. exact (members_disjoint e0 h Hv x Y X). }
  assert (SM : forall id, In id vis -> In id (all_members h)) by (intros id I; apply S in I; unfold all_members; apply in_app_iff in I; apply in_app_iff; tauto).
  assert (CI : forall id i, In (id, i) (flat_map call vis) <-> In id vis /\ accepts f (W id) /\ si_hit (sq id) = true /\ i = sq id).
  { intros id i. rewrite in_flat_map. unfold call, accepts. split.
    - intros (j & J & Q). destruct (reject (qs_filter (W j)) f) eqn:R; [destruct Q|]. cbn [negb] in Q. destruct (si_hit (sq j)) eqn:Hh; [|destruct Q]. destruct Q as [[= <- <-]|[]]. auto.
    - intros (J & Ac & Hh & ->). exists id. split; [exact J|]. rewrite Ac, Hh. now left. }
  split; [|split].
  - clear -NV. induction NV as [|x l Nx _ IH]; cbn [flat_map]; [constructor|]. rewrite map_app. assert (Q : forall y, In y (map fst (flat_map call l)) -> In y l).
    { intros y Y. apply in_map_iff in Y as ([y' i] & <- & Y). apply in_flat_map in Y as (j & J & Y). unfold call in Y. destruct (negb _); [|destruct Y]. destruct (si_hit _); [|destruct Y]. destruct Y as [[= <- <-]|[]]. exact J. }
    unfold call at 1. destruct (negb _); [|exact IH]. destruct (si_hit _); [|exact IH]. cbn [map fst app]. constructor; auto.
  - intros id i I. apply CI in I as (I & Q). auto.
  - intros id M Ac Hh L. apply CI. split; [|auto]. apply C; auto. unfold all_members in M. apply in_app_iff in M. apply in_app_iff. tauto.
Qed.
End Seg.
