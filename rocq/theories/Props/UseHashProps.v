(** C134: a space answers the same with spatial hashes as with trees. *)
From Coq Require Import Reals ZArith NArith Bool List Arith Lra Lia Permutation.
From Flocq Require Import IEEE754.BinarySingleNaN Core.
From Verif Require Import Num Spec SpecShapes SpecIndex SpecQuery SpecSpaceHash.
From Verif.Model Require Import Vector BB BBTree Transform Shapes Handlers Collision Query SpaceHash UseHash.
From Verif.Proofs Require Import RTac Util BBOrder BBTreeTop Geom QueryPf QueryGeo SpHashPf SpHashPf2 SpHashPf3 SpHashFloor.
From Verif.Props Require Import Index QueryProps SpaceHashProps.
Import ListNotations.
Local Open Scope nat_scope.

(** the hashes and the trees hold the same shapes, and have seen their present boxes *)
Record same_shapes {T} `{Num T} (W : nat -> QShape T) (e0 : env T) (h : list (op T)) (dim : T) (n : nat) (b0 : nat -> BB T) (hs hd : list (SpecSpaceHash.hop T)) : Prop := {
  ss_cells : 0 < n;
  ss_tree : valid e0 h;
  ss_static : hvalid dim n b0 hs;
  ss_dynamic : hvalid dim n b0 hd;
  ss_static_members : forall id, In id (hmembers hs) <-> In id (members false h);
  ss_dynamic_members : forall id, In id (hmembers hd) <-> In id (members true h);
  ss_tree_boxes : up_to_date e0 h W;
  ss_static_boxes : forall id, In id (hmembers hs) -> hindexed b0 id hs = box_of (W id);
  ss_dynamic_boxes : forall id, In id (hmembers hd) -> hindexed b0 id hd = box_of (W id) }.

Lemma apart_members {T} `{Num T} (e0 : env T) (h : list (op T)) : valid e0 h -> forall id, In id (members true h) -> In id (members false h) -> False.
Proof.
  intros V id. revert V. induction h as [|o l IH]; [intros _ []|]. cbn [members valid]. intros [Al V] A B.
  destruct o as [e|d i|d i|d i|order]; cbn [members allowed] in *; auto.
  - destruct d; cbn in A, B; [destruct A as [<-|A]|destruct B as [<-|B]]; auto; tauto.
  - destruct d; cbn in A, B; [apply in_remove in A as [A _]|apply in_remove in B as [B _]]; auto.
Qed.
Section G.
Context {T : Type} `{Num T}.
Variables (W : nat -> QShape T) (e0 : env T) (h : list (op T)) (dim : T) (n : nat) (b0 : nat -> BB T) (hs hd : list (SpecSpaceHash.hop T)).
Hypothesis SS : same_shapes W e0 h dim n b0 hs hd.
Let ix := mkHX (hrun dim n b0 hs) (hrun dim n b0 hd).
Lemma candidates q : let l := snd (sh_query (hrun dim n b0 hs) None q) ++ snd (sh_query (hrun dim n b0 hd) None q) in
  NoDup l /\ forall id, In id l <-> In id (all_members h) /\ share dim n (box_of (W id)) q.
Proof.
  destruct SS as [P V Vs Vd Ms Md U Bs Bd]. cbv zeta. pose proof (C16_query dim n b0 P hs Vs None q) as Qs. pose proof (C16_query dim n b0 P hd Vd None q) as Qd.
  destruct (sh_query (hrun dim n b0 hs) None q) as [s1 o1]. destruct (sh_query (hrun dim n b0 hd) None q) as [s2 o2]. cbn [snd]. destruct Qs as [N1 E1], Qd as [N2 E2]. split.
  - apply nodup_app_iff. split; [exact N1|]. split; [exact N2|]. intros id A B. apply E1 in A as [A _]. apply E2 in B as [B _]. eapply (apart_members e0 h V); [apply Md; exact B|apply Ms; exact A].
  - intros id. rewrite in_app_iff, E1, E2. unfold all_members. rewrite in_app_iff, <- Ms, <- Md. split.
    + intros [(A & _ & B)|(A & _ & B)]; [rewrite (Bs id A) in B|rewrite (Bd id A) in B]; tauto.
    + intros [[A|A] B]; [right|left]; (split; [exact A|split; [discriminate|]]); [rewrite (Bd id A)|rewrite (Bs id A)]; exact B.
Qed.
End G.
(** BBQuery (binary64): the same shapes, each once, if the boxes are finite and within 2^62 cells of the origin *)
Theorem C134_box_query : forall (W : nat -> QShape F) e0 h dim n b0 hs hd q f, same_shapes W e0 h dim n b0 hs hd ->
  is_finite dim = true -> (0 < B2R dim)%R -> on_grid (fits_F dim) q -> (forall id, In id (all_members h) -> on_grid (fits_F dim) (box_of (W id))) ->
  Permutation (bb_query_h W (mkHX (hrun dim n b0 hs) (hrun dim n b0 hd)) q f) (bb_query W (run e0 h) q f).
Proof.
  intros W e0 h dim n b0 hs hd q f SS Fd Pd Gq Gb. destruct (C96_box_query_exact W e0 h q f (ss_tree _ _ _ _ _ _ _ _ SS) (ss_tree_boxes _ _ _ _ _ _ _ _ SS)) as [N E].
  destruct (candidates W e0 h dim n b0 hs hd SS q) as [N' E']. apply NoDup_Permutation; [apply nodup_filter; exact N'|exact N|].
  intros id. rewrite E. unfold bb_query_h. cbn [hx_sta hx_dyn]. rewrite filter_In, E', andb_true_iff, negb_true_iff. unfold accepts. split; [tauto|].
  intros (A & B & C). split; [split; [exact A|]|tauto]. apply C16_overlap_F; auto.
Qed.
(** PointQueryNearest (reals): a shape at the same distance, or none in both cases *)
Theorem C134_nearest : forall (W : nat -> QShape R) e0 h dim n b0 hs hd p maxd f, same_shapes W e0 h dim n b0 hs hd -> (0 < dim)%R ->
  (forall id, In id (all_members h) -> placed (class_of (W id)) (box_of (W id)) /\ in_range p (class_of (W id))) ->
  let tree := point_query_nearest W (run e0 h) p maxd f in let hash := point_query_nearest_h W (mkHX (hrun dim n b0 hs) (hrun dim n b0 hd)) p maxd f in
  pi_dist (snd hash) = pi_dist (snd tree) /\
  match fst tree, fst hash with
  | None, None => True
  | Some i, Some j => In j (all_members h) /\ visible f (W j) /\ snd hash = point_query (class_of (W j)) p /\ pi_dist (point_query (class_of (W j)) p) = pi_dist (point_query (class_of (W i)) p)
  | _, _ => False
  end.
Proof.
  intros W e0 h dim n b0 hs hd p maxd f SS Pd PL. cbv zeta. pose proof (C15_nearest W e0 h p maxd f (ss_tree _ _ _ _ _ _ _ _ SS) (ss_tree_boxes _ _ _ _ _ _ _ _ SS) PL) as TR. cbv zeta in TR.
  destruct (nearest_ok W p f e0 h maxd (ss_tree _ _ _ _ _ _ _ _ SS)) as [TA _].
  unfold point_query_nearest_h. cbn [hx_sta hx_dyn]. set (q := bb_circle p (nmax maxd nzero)). destruct (candidates W e0 h dim n b0 hs hd SS q) as [_ E].
  match goal with |- context [fold_left _ (?x ++ ?y) _] => set (l := x ++ y) end.
  assert (E' : forall id, In id l <-> In id (all_members h) /\ share dim n (box_of (W id)) q) by (intros id; unfold l; rewrite in_app_iff, <- E, in_app_iff; tauto).
  destruct (nearest_fold W p f l (None, mkPI vzero maxd vzero)) as (A & _ & C). cbv zeta in A, C. set (out := fold_left _ l _) in *. cbn [snd pi_dist] in A. set (d := fun id => pi_dist (point_query (class_of (W id)) p)) in *.
  assert (ALL : forall id, In id (all_members h) -> visible f (W id) -> (d id < maxd)%R -> (pi_dist (snd out) <= d id)%R).
  { intros id I Vi L. destruct (PL id I) as [P1 P2]. pose proof (near_intersects _ _ p maxd P1 P2 L) as NI. destruct (near_point _ _ p P1 P2) as (z & Z & _). apply in_box_R in Z.
    assert (SH : share dim n (box_of (W id)) q).
    { apply C16_overlap_R; auto. - split; unR; apply Rleb_true; lra.
      - unfold q, bb_circle, bb_extents, ordered. unR. cbn [bl bb br bt]. pose proof (Rmax_r maxd 0). split; apply Rleb_true; lra. }
    pose proof (C id (proj2 (E' id) (conj I SH)) Vi) as Q. unR. apply Rltb_false in Q. unfold d. lra. }
  set (tree := point_query_nearest W (run e0 h) p maxd f) in *.
  destruct A as [A|(j & J & Vj & A & L)].
  - rewrite A in *. cbn [snd fst pi_dist] in *. destruct TA as [->|(i & I & Vi & -> & L)]; cbn [fst snd] in *; [split; [reflexivity|exact Logic.I]|]. exfalso. unR. apply Rltb_true in L. specialize (ALL i I Vi L). unfold d in ALL. lra.
  - rewrite A in *. cbn [snd fst] in *. apply E' in J as [J _]. unR. apply Rltb_true in L. destruct TA as [->|(i & I & Vi & -> & L')]; cbn [fst snd] in *.
    + exfalso. specialize (TR j J Vj). unfold d in *. lra.
    + unR. apply Rltb_true in L'. destruct TR as (_ & _ & _ & _ & TR). specialize (TR j J Vj). specialize (ALL i I Vi L'). unfold d in *. assert (EQ : pi_dist (point_query (class_of (W j)) p) = pi_dist (point_query (class_of (W i)) p)) by lra. tauto.
Qed.
(** a step: every two shapes whose boxes overlap are handed to the collision function exactly once with either kind of index, the others are rejected by the first test there (space.go:515) *)
Definition touching {T} `{Num T} (W : nat -> QShape T) (calls : list (nat * nat)) : list (nat * nat) := filter (fun c => bb_intersects (box_of (W (fst c))) (box_of (W (snd c)))) calls.
Lemma times_zero i j calls : ~ In (i, j) calls -> ~ In (j, i) calls -> times i j calls = 0.
Proof.
  intros A B. unfold times. rewrite filter_none; [reflexivity|]. intros [x y] I. cbn [fst snd]. apply orb_false_iff. split; apply andb_false_iff.
  - destruct (Nat.eqb_spec x i) as [->|]; auto. destruct (Nat.eqb_spec y j) as [->|]; auto. contradiction.
  - destruct (Nat.eqb_spec x j) as [->|]; auto. destruct (Nat.eqb_spec y i) as [->|]; auto. contradiction.
Qed.
Lemma times_one i j calls : NoDup calls -> In (i, j) calls -> ~ In (j, i) calls -> times i j calls = 1.
Proof.
  unfold times. induction calls as [|[x y] l IH]; [intros _ []|]. intros N I J. inversion N as [|? ? N1 N2]; subst. cbn [filter fst snd].
  destruct I as [E|I].
  - injection E as -> ->. rewrite !Nat.eqb_refl. cbn [andb orb length]. f_equal. apply times_zero; auto. intros Q. apply J. now right.
  - replace (((x =? i) && (y =? j)) || ((x =? j) && (y =? i))) with false; [apply IH; auto; intros Q; apply J; now right|]. symmetry. apply orb_false_iff. split; apply andb_false_iff.
    + destruct (Nat.eqb_spec x i) as [->|]; auto. destruct (Nat.eqb_spec y j) as [->|]; auto. contradiction.
    + destruct (Nat.eqb_spec x j) as [->|]; auto. destruct (Nat.eqb_spec y i) as [->|]; auto. exfalso. apply J. now left.
Qed.
Lemma times_touching {T} `{OrdNum T} (W : nat -> QShape T) i j calls : times i j (touching W calls) = if bb_intersects (box_of (W i)) (box_of (W j)) then times i j calls else 0.
Proof.
  unfold times, touching. rewrite filter_filter. destruct (bb_intersects (box_of (W i)) (box_of (W j))) eqn:E.
  - f_equal. apply filter_ext. intros [x y]. cbn [fst snd]. destruct (((x =? i) && (y =? j)) || ((x =? j) && (y =? i))) eqn:Q; [cbn [andb]|reflexivity].
    apply orb_true_iff in Q as [Q|Q]; apply andb_true_iff in Q as [Q1 Q2]; apply Nat.eqb_eq in Q1, Q2; subst; [exact E|rewrite intersects_sym; exact E].
  - rewrite filter_none; auto. intros [x y] _. cbn [fst snd]. destruct (((x =? i) && (y =? j)) || ((x =? j) && (y =? i))) eqn:Q; [cbn [andb]|reflexivity].
    apply orb_true_iff in Q as [Q|Q]; apply andb_true_iff in Q as [Q1 Q2]; apply Nat.eqb_eq in Q1, Q2; subst; [exact E|rewrite intersects_sym; exact E].
Qed.
Theorem C134_step_pairs : forall (W : nat -> QShape F) e0 h order dim n b0 hs hd order', is_finite dim = true -> (0 < B2R dim)%R -> 0 < n ->
  valid e0 (OReindexQuery order :: h) -> hvalid dim n b0 hs -> hvalid dim n b0 hd -> Permutation order' (hmembers hd) ->
  (forall id, In id (hmembers hs) <-> In id (members false h)) -> (forall id, In id (hmembers hd) <-> In id (members true h)) ->
  (forall id, In id (members true h) -> cur (env_now e0 h) id = box_of (W id)) ->
  (forall id, In id (members false h) -> indexed e0 false id h = Some (box_of (W id)) /\ hindexed b0 id hs = box_of (W id)) ->
  (forall id, In id (all_members h) -> on_grid (fits_F dim) (box_of (W id))) ->
  let tree := snd (ix_reindex_query (env_now e0 h) order (run e0 h)) in let hash := step_pairs_h W (mkHX (hrun dim n b0 hs) (hrun dim n b0 hd)) order' in
  forall i j, i <> j -> times i j (touching W hash) = times i j (touching W tree) /\
    (bb_intersects (box_of (W i)) (box_of (W j)) = true -> In i (members true h) -> In j (all_members h) -> times i j (touching W hash) = 1).
Proof.
  intros W e0 h order dim n b0 hs hd order' Fd Pd P V Vs Vd PM Ms Md Bd Bs G tree hash i j D.
  destruct (C12_pairs_reported_once e0 h order V) as (T1 & T2 & T3 & T4). fold tree in T1, T2, T3, T4. destruct V as [_ V].
  assert (AP : forall id, In id (members true h) -> In id (members false h) -> False) by (apply (apart_members e0); exact V).
  pose proof (C16_pairs dim n b0 P (HMove (fun id => box_of (W id)) :: hd) order' (conj Logic.I Vd) PM) as HP. change (hrun dim n b0 (HMove (fun id => box_of (W id)) :: hd)) with (hrun dim n b0 hd) in HP. cbn [SpecSpaceHash.box_now hmembers] in HP.
  assert (ND : NoDup order') by (eapply Permutation_NoDup; [symmetry; exact PM|]; destruct (history_ok dim n b0 P hd Vd); assumption).
  pose proof (C16_static dim n b0 P hs (fun id => box_of (W id)) order' Vs ND) as HS.
  unfold hash, step_pairs_h. cbn [hx_sta hx_dyn]. destruct (sh_reindex_query _ order' _) as [s1 c1]. destruct (sh_collide_static _ order' _) as [s2 c2]. cbn [snd]. destruct HP as [H1 H2], HS as [N2 H3].
  assert (OR : forall id, In id order' <-> In id (members true h)) by (intros id; rewrite <- Md; split; apply Permutation_in; [exact PM|symmetry; exact PM]).
  assert (MA : forall id, In id (all_members h) <-> In id (members true h) \/ In id (members false h)) by (intros id; unfold all_members; apply in_app_iff).
  rewrite !times_touching. destruct (bb_intersects (box_of (W i)) (box_of (W j))) eqn:E; [|split; [reflexivity|discriminate]].
  assert (DD : forall a b, a <> b -> bb_intersects (box_of (W a)) (box_of (W b)) = true -> In a (members true h) -> In b (members true h) -> times a b tree = 1 /\ times a b (c1 ++ c2) = 1).
  { intros a b Dab Eab Ia Ib. split; [apply T1; auto; rewrite !Bd by assumption; exact Eab|]. rewrite times_app. rewrite (times_zero a b c2).
    - rewrite Nat.add_0_r. apply (H2 a b Dab). rewrite !Md. repeat split; auto. apply C16_overlap_F; auto; apply G, MA; auto.
    - intros Q. apply H3 in Q as (_ & Q & _). apply Ms in Q. exact (AP b Ib Q).
    - intros Q. apply H3 in Q as (_ & Q & _). apply Ms in Q. exact (AP a Ia Q). }
  assert (DS : forall a b, a <> b -> bb_intersects (box_of (W a)) (box_of (W b)) = true -> In a (members true h) -> In b (members false h) -> times a b tree = 1 /\ times a b (c1 ++ c2) = 1).
  { intros a b Dab Eab Ia Ib. destruct (Bs b Ib) as [B1 B2]. split; [eapply T2; eauto; rewrite Bd by assumption; exact Eab|]. rewrite times_app. rewrite (times_zero a b c1).
    - apply times_one; [exact N2| |].
      + apply H3. rewrite OR, Ms, B2. repeat split; auto. apply C16_overlap_F; auto; apply G, MA; auto.
      + intros Q. apply H3 in Q as (Q & _). apply OR in Q. exact (AP b Q Ib).
    - intros Q. apply H1 in Q as (_ & Q & _). apply Md in Q. exact (AP b Q Ib).
    - intros Q. apply H1 in Q as (Q & _ & _). apply Md in Q. exact (AP b Q Ib). }
  assert (E2 : bb_intersects (box_of (W j)) (box_of (W i)) = true) by (rewrite intersects_sym; exact E).
  assert (NO : ~ (In i (members true h) /\ In j (all_members h)) -> ~ (In j (members true h) /\ In i (all_members h)) -> times i j (c1 ++ c2) = 0 /\ times i j tree = 0).
  { intros A B. rewrite !MA in A, B.
    assert (NT : forall a b, In (a, b) tree -> In a (members true h) /\ (In b (members true h) \/ In b (members false h)) \/ In b (members true h) /\ (In a (members true h) \/ In a (members false h))) by (intros a b Q; apply T4 in Q as (_ & Q & _); tauto).
    assert (NH : forall a b, In (a, b) (c1 ++ c2) -> In a (members true h) /\ (In b (members true h) \/ In b (members false h))).
    { intros a b Q. apply in_app_iff in Q as [Q|Q]; [apply H1 in Q as (Q1 & Q2 & _); rewrite Md in Q1, Q2; tauto|apply H3 in Q as (Q1 & Q2 & _); rewrite OR in Q1; rewrite Ms in Q2; tauto]. }
    split; apply times_zero; intros Q; [apply NH in Q|apply NH in Q|apply NT in Q|apply NT in Q]; tauto. }
  assert (IJ : In i (members true h) -> In j (all_members h) -> times i j tree = 1 /\ times i j (c1 ++ c2) = 1) by (intros A B; apply MA in B as [B|B]; auto).
  assert (JI : In j (members true h) -> In i (all_members h) -> times i j tree = 1 /\ times i j (c1 ++ c2) = 1) by (intros A B; rewrite !(times_sym i j); apply MA in B as [B|B]; auto).
  split; [|intros _ A B; apply IJ; auto].
  destruct (in_dec Nat.eq_dec i (members true h)) as [A|A]; [destruct (in_dec Nat.eq_dec j (all_members h)) as [B|B]; [destruct (IJ A B); congruence|]|];
  (destruct (in_dec Nat.eq_dec j (members true h)) as [A'|A']; [destruct (in_dec Nat.eq_dec i (all_members h)) as [B'|B']; [destruct (JI A' B'); congruence|]|]); destruct NO as [Z1 Z2]; try tauto; congruence.
Qed.
(** ** the switch *)
Section W.
Context {T : Type} `{Num T}.
Lemma in_use_hash_in (s : hash T) h i g : in_use (hash_in s h i) g -> in_use s g \/ g = h.
Proof.
  unfold hash_in. destruct (existsb _ _); [auto|]. intros [U|(k & U)]; [left; left; exact U|]. cbn [set_cell with_table table retain set_retains with_heap] in U. unfold upd in U. destruct (Nat.eqb k i); [destruct U as [U|U]; [right; now symmetry|]|]; left; right; eexists; exact U.
Qed.
Lemma in_use_hash_handle (s : hash T) h x g : in_use (hash_handle s h x) g -> in_use s g \/ g = h.
Proof.
  unfold hash_handle. generalize (slots s x). intros l. revert s. induction l as [|i l IH]; intros s; cbn [fold_left]; [auto|]. intros U. apply IH in U as [U|U]; auto. now apply in_use_hash_in in U.
Qed.
Lemma in_use_insert (s : hash T) o g x g' : in_use (sh_insert s o g x) g' -> in_use s g' \/ g' = g.
Proof.
  unfold sh_insert. destruct (find_handle s o) as [h|] eqn:E; intros U; apply in_use_hash_handle in U as [U| ->]; auto.
  - left. left. unfold find_handle in E. apply List.find_some in E. tauto.
  - destruct U as [[U|U]|(i & U)]; auto; left; [left; exact U|right; exists i; exact U].
Qed.
(** the insertions, the last one first *)
Definition inserts (l : list (nat * nat)) : list (SpecSpaceHash.hop T) := map (fun og => HInsert (fst og) (snd og)) (rev l).
Lemma fill_run dim n (box : nat -> BB T) l : fill dim n box l = hrun dim n box (inserts l).
Proof.
  unfold fill, inserts. rewrite <- fold_left_rev_right. generalize (rev l). intros r. induction r as [|[o g] r IH]; [reflexivity|]. cbn [fold_right map hrun happly fst snd]. rewrite IH. f_equal.
  clear. induction r; [reflexivity|]. exact IHr.
Qed.
Lemma inserts_ok dim n (box : nat -> BB T) r : NoDup (map fst r) -> NoDup (map snd r) -> let hh := map (fun og => HInsert (fst og) (snd og)) r in
  hvalid dim n box hh /\ hmembers hh = map fst r /\ (forall g, in_use (hrun dim n box hh) g -> In g (map snd r)) /\ forall o, hindexed box o hh = box o.
Proof.
  cbv zeta. induction r as [|[o g] r IH]; intros N1 N2.
  - split; [exact Logic.I|]. split; [reflexivity|]. split; [intros g [[]|(i & [])]|reflexivity].
  - cbn [map fst snd] in N1, N2. apply NoDup_cons_iff in N1 as [X1 N1]. apply NoDup_cons_iff in N2 as [X2 N2]. destruct (IH N1 N2) as (V & M & U & B). cbn [map hvalid hmembers hallowed hrun happly hindexed fst snd]. split; [|split; [|split]].
    + split; [split|exact V]; [rewrite M; exact X1|right; intros Q; apply X2; apply U; exact Q].
    + now rewrite M.
    + intros g' Q. apply in_use_insert in Q as [Q| ->]; [right; auto|now left].
    + intros o'. destruct (Nat.eqb o' o); [|apply B]. clear. induction r; [reflexivity|]. exact IHr.
Qed.
End W.
(** UseSpatialHash fills two new hashes with the shapes of the trees, in whatever order these are visited and whatever handles the pools give out: the space then is one with the same shapes *)
Theorem C134_switch : forall {T} `{OrdNum T} (W : nat -> QShape T) e0 h dim n ls ld, 0 < n -> valid e0 h -> up_to_date e0 h W ->
  Permutation (map fst ls) (members false h) -> Permutation (map fst ld) (members true h) -> NoDup (map snd ls) -> NoDup (map snd ld) -> let box id := box_of (W id) in
  use_spatial_hash dim n box ls ld = mkHX (hrun dim n box (inserts ls)) (hrun dim n box (inserts ld)) /\ same_shapes W e0 h dim n box (inserts ls) (inserts ld).
Proof.
  intros T ? ? W e0 h dim n ls ld P V U Ps Pd Ns Nd box. split; [unfold use_spatial_hash; now rewrite !fill_run|].
  assert (X : forall l d, Permutation (map fst l) (members d h) -> NoDup (map snd l) -> hvalid dim n box (inserts l) /\ (forall id, In id (hmembers (inserts (T := T) l)) <-> In id (members d h)) /\ forall o, hindexed box o (inserts l) = box o).
  { intros l d Pm N. destruct (inserts_ok dim n box (rev l)) as (A & B & _ & C).
    - rewrite map_rev. apply NoDup_rev. eapply Permutation_NoDup; [symmetry; exact Pm|]. now apply (nodup_members e0).
    - rewrite map_rev. now apply NoDup_rev.
    - split; [exact A|]. split; [|exact C]. intros id. unfold inserts. rewrite B, map_rev, <- in_rev. split; apply Permutation_in; [exact Pm|symmetry; exact Pm]. }
  destruct (X ls false Ps Ns) as (A1 & A2 & A3). destruct (X ld true Pd Nd) as (B1 & B2 & B3). constructor; auto; intros; [apply A3|apply B3].
Qed.
(** a space with three shapes, one of them static: the switch, and a query that sees two of them *)
Definition disc (x y : Z) : QShape F := mkQS (mkCS (Circle (fvec x y) (Flit 1 1)) (fbox (x - 1) (y - 1) (x + 1) (y + 1)) 0 (fvec 1 0)) false (mkFilter 0 4294967295 4294967295).
Definition discs (id : nat) : QShape F := match id with 0 => disc 0 0 | 1 => disc 1 1 | _ => disc 10 10 end.
Definition disc_env : env F := mkEnv (fun id => box_of (discs id)) (fun _ => fvec 0 0).
Definition disc_history : list (op F) := [OInsert false 1; OInsert true 2; OInsert true 0].
Lemma disc_valid : valid disc_env disc_history.
Proof.
  assert (E : env_ok disc_env) by (apply C10_fat_box; intros [|[|k]]; repeat split; vm_compute; reflexivity).
  cbn. repeat (split; [lia|]); auto; repeat split; auto; lia.
Qed.
Example C134_nonvacuous : let ix := use_spatial_hash (Flit 5 1) 1000 (fun id => box_of (discs id)) [(1, 7)] [(0, 3); (2, 4)] in
  same_shapes discs disc_env disc_history (Flit 5 1) 1000 (fun id => box_of (discs id)) (inserts [(1, 7)]) (inserts [(0, 3); (2, 4)]) /\
  bb_query_h discs ix (fbox 0 0 2 2) (mkFilter 0 4294967295 4294967295) = [1; 0] /\ step_pairs_h discs ix [0; 2] = [(2, 0); (0, 1)] /\ touching discs (step_pairs_h discs ix [0; 2]) = [(0, 1)].
Proof.
  cbv zeta. split; [|split; [|split]; vm_compute; reflexivity]. apply (C134_switch discs disc_env disc_history (Flit 5 1) 1000 [(1, 7)] [(0, 3); (2, 4)]).
  - lia. - exact disc_valid. - intros [] o; cbn; intros Q; repeat destruct Q as [<-|Q]; try tauto; reflexivity.
  - apply Permutation_refl. - apply perm_swap. - repeat constructor; cbn; tauto. - repeat constructor; cbn; lia.
Qed.
Print Assumptions C134_box_query.
Print Assumptions C134_nearest.
Print Assumptions C134_step_pairs.
Print Assumptions C134_switch.
