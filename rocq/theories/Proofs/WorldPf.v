(** The broad phase, narrow phase and arbiter bookkeeping put together (C122). *)
From Coq Require Import NArith Bool List Arith Lia Permutation.
From Verif Require Import Num.
From Verif.Model Require Import Vector BB BBTree Shapes Handlers Collision Query Space World.
From Verif.Proofs Require Import Util BBOrder BBTreeTop SpaceLib SpaceInv SpaceAct SpaceProto SpaceHist SpaceStep SpaceStep2 SpaceStep3 SpaceReach SpaceTop.
From Verif.Props Require Import SpaceProps.
From Verif Require Import SpecIndex SpecSpace SpecWorld.
Import ListNotations.
Local Open Scope nat_scope.

Section W.
Context {T : Type} {NT : Num T} {OT : OrdNum T} {TM : Type} {TT : Time TM}.
Variable g0 : Geo T.
Notation e0 := (env_of g0).

Lemma in_pairs s g ids rep q : In q (collide_pairs (TM := TM) s g ids rep) <-> exists p, In p rep /\ collide_one s g ids p = Some q.
Proof.
  unfold collide_pairs. rewrite in_flat_map. split; intros (p & P & Q); exists p; (split; [exact P|]).
  - destruct (collide_one s g ids p) as [r|]; [destruct Q as [->|[]]; reflexivity|destruct Q].
  - rewrite Q. now left.
Qed.
Lemma collide_one_pair s g ids a b q : collide_one (TM := TM) s g ids (a, b) = Some q ->
  query_reject s g a b = false /\ same_pair a b (fst q) (snd q) = true /\ exists sw info, collide (qs_shape (g_shape g a)) (qs_shape (g_shape g b)) (ids a b) = Some (sw, info) /\ ci_arr info <> [].
Proof.
  unfold collide_one. destruct (query_reject s g a b); [discriminate|]. destruct (collide _ _ _) as [[sw info]|]; [|discriminate]. destruct (ci_arr info) eqn:E; [discriminate|]. intros [= <-].
  split; [reflexivity|]. split; [destruct sw; cbn [fst snd]; unfold same_pair; rewrite !Nat.eqb_refl; cbn; [now rewrite orb_true_r|reflexivity]|]. exists sw, info. split; [reflexivity|]. rewrite E. discriminate.
Qed.
Lemma collide_one_some s g ids a b : query_reject (TM := TM) s g a b = false -> meet g a b -> exists q, collide_one s g ids (a, b) = Some q.
Proof.
  intros R M. destruct (M (ids a b)) as (sw & info & E & N). unfold collide_one. rewrite R, E. destruct (ci_arr info); [congruence|]. eexists. reflexivity.
Qed.
Lemma times_cons i j p l : times i j (p :: l) = (if same_pair i j (fst p) (snd p) then 1 else 0) + times i j l.
Proof.
  unfold times. cbn [filter]. unfold same_pair. rewrite !(Nat.eqb_sym i), !(Nat.eqb_sym j), (andb_comm (snd p =? i)).
  destruct ((fst p =? i) && (snd p =? j) || (fst p =? j) && (snd p =? i)) eqn:E; reflexivity.
Qed.
Lemma times_in i j l : In (i, j) l \/ In (j, i) l <-> 1 <= times i j l.
Proof.
  induction l as [|[a b] l IH]; [cbn; split; [tauto|lia]|]. rewrite times_cons. cbn [In fst snd]. unfold same_pair.
  destruct (Nat.eqb_spec i a); destruct (Nat.eqb_spec j b); destruct (Nat.eqb_spec i b); destruct (Nat.eqb_spec j a); cbn [andb orb]; subst; (split; [intros|intros]); try lia; try tauto;
  try (assert (D : In (i, j) l \/ In (j, i) l) by (intuition congruence); apply IH in D; lia); intuition congruence.
Qed.
Lemma ordered_pairs s g ids rep : (forall i j, i <> j -> times i j rep <= 1) -> (forall i j, In (i, j) rep -> i <> j) ->
  ForallOrdPairs (fun p q => same_pair (fst p) (snd p) (fst q) (snd q) = false) (collide_pairs (TM := TM) s g ids rep).
Proof.
  induction rep as [|[a b] rep IH]; intros H1 H2; [constructor|]. cbn [collide_pairs flat_map]. fold (collide_pairs s g ids rep).
  assert (IH' : ForallOrdPairs (fun p q => same_pair (fst p) (snd p) (fst q) (snd q) = false) (collide_pairs s g ids rep)).
  { apply IH; [|intros i j D; apply H2; now right]. intros i j N. specialize (H1 i j N). rewrite times_cons in H1. lia. }
  destruct (collide_one s g ids (a, b)) as [q|] eqn:E; [|exact IH']. cbn [app]. constructor; [|exact IH'].
  apply Forall_forall. intros r Hr. apply in_pairs in Hr as ([c d] & P & Q). apply collide_one_pair in E as (_ & E & _). apply collide_one_pair in Q as (_ & Q & _).
  destruct (same_pair (fst q) (snd q) (fst r) (snd r)) eqn:S; auto. exfalso.
  assert (N : a <> b) by (apply H2; now left). specialize (H1 a b N). rewrite times_cons in H1. cbn [fst snd] in H1. unfold same_pair at 1 in H1. rewrite !Nat.eqb_refl in H1. cbn in H1.
  assert (D : 1 <= times a b rep); [|lia]. apply times_in. pose proof (pair_eqb_trans _ _ _ _ _ _ E S) as X. change (pair_eqb a b (fst r) (snd r) = true) in X. change (pair_eqb c d (fst r) (snd r) = true) in Q.
  apply pair_eqb_iff in X, Q. destruct X as [[X1 X2]|[X1 X2]], Q as [[Q1 Q2]|[Q1 Q2]]; subst; tauto.
Qed.
Lemma query_reject_iff s (g : Geo T) a b : Core (T := TM) s [] ->
  (query_reject s g a b = false <-> may_touch s g a b /\ bb_intersects (box_of (g_shape g a)) (box_of (g_shape g b)) = true).
Proof.
  intros I. pose proof (rejected_iff s (mkHit a b 0 true true false) I) as Q. cbn [h_a h_b] in Q. unfold may_touch, query_reject. unfold rejected in Q. cbn [h_a h_b] in Q.
  rewrite <- Q, !orb_false_iff, negb_false_iff. tauto.
Qed.
Lemma collides_sym (s : Space TM) a b : collides s a b -> collides s b a.
Proof. intros [N C]. split; [congruence|]. intros c Hc Cc D. apply (C c Hc Cc). tauto. Qed.
Lemma reject_sym' f k : reject f k = reject k f.
Proof.
  unfold reject. assert (G : negb (N.eqb (fl_group f) 0) && N.eqb (fl_group f) (fl_group k) = negb (N.eqb (fl_group k) 0) && N.eqb (fl_group k) (fl_group f)).
  { destruct (N.eqb_spec (fl_group f) (fl_group k)) as [->|D]; [now rewrite N.eqb_refl|]. destruct (N.eqb_spec (fl_group k) (fl_group f)); [congruence|]. now rewrite !andb_false_r. }
  rewrite G, <- !orb_assoc. f_equal. apply orb_comm.
Qed.
Lemma may_touch_sym (s : Space TM) (g : Geo T) a b : may_touch s g a b -> may_touch s g b a.
Proof. intros [C R]. split; [now apply collides_sym|]. now rewrite reject_sym'. Qed.

Section Step.
Variables (s : Space TM) (h : list (op T)) (g g' : Geo T) (order : list nat) (ids : nat -> nat -> N) (dt : TM) (mv : nat -> bool) (thr : option TM) (hits : list Hit).
Hypothesis Rs : reachable s.
Hypothesis Sy : in_sync g0 h s g.
Hypothesis St : stepping g0 s h g g' order ids thr hits.
Notation rep := (snd (ix_reindex_query (env_of g') order (run e0 (OMove (env_of g') :: h)))).
Lemma in_hits p : In p (collide_pairs s g' ids rep) <-> exists k, In k hits /\ p = (h_a k, h_b k).
Proof. rewrite <- (st_hits _ _ _ _ _ _ _ _ _ St), in_map_iff. split; intros (k & A & B); exists k; auto. Qed.
Lemma step_legal : legal s (Step dt mv thr hits).
Proof.
  destruct (reach_ok s Rs) as [I _]. destruct Sy as (Sd & Ss & _ & _). pose proof (reindex_reports e0 (OMove (env_of g') :: h) order (st_valid _ _ _ _ _ _ _ _ _ St)) as (_ & _ & R3 & R4). cbn [SpecIndex.env_now members] in R3, R4.
  cbn [legal]. constructor; [|apply (st_new _ _ _ _ _ _ _ _ _ St)| |apply (st_none _ _ _ _ _ _ _ _ _ St)|apply (st_some _ _ _ _ _ _ _ _ _ St)].
  - intros k Hk. assert (P : In (h_a k, h_b k) (collide_pairs s g' ids rep)) by (apply in_hits; eauto). apply in_pairs in P as ([a b] & P & Q). apply collide_one_pair in Q as (_ & Q & _). cbn [fst snd] in Q.
    destruct (R4 a b P) as (_ & M & _). rewrite !Sd, !Ss in M.
    assert (IN : forall x, In x (sp_didx s) \/ In x (sp_sidx s) -> ss_in (sp_s s x) = true). { intros x [D|D]; [apply (i_didx _ _ I) in D|apply (i_sidx _ _ I) in D]; tauto. }
    pose proof (proj2 (st_new _ _ _ _ _ _ _ _ _ St) k Hk) as NW. apply pair_eqb_iff in Q. destruct Q as [[Q1 Q2]|[Q1 Q2]]; rewrite <- Q1, <- Q2; (split; [apply IN; tauto|]); (split; [apply IN; tauto|]); (split; [tauto|exact NW]).
  - pose proof (ordered_pairs s g' ids rep R3 (fun i j D => proj1 (R4 i j D))) as F. rewrite <- (st_hits _ _ _ _ _ _ _ _ _ St) in F. clear - F. induction hits as [|k l IH]; [constructor|]. cbn [map] in F. inversion F as [|? ? F1 F2]; subst. constructor; [|now apply IH].
    apply Forall_forall. intros q Hq. rewrite Forall_forall in F1. apply (F1 (h_a q, h_b q)). apply in_map_iff. eauto.
Qed.
Lemma step_runs : exists s', exec s (Step dt mv thr hits) = Some s'.
Proof. destruct (reach_ok s Rs) as [I P]. destruct (exec_ok s _ I P step_legal) as (s' & E & _). eauto. Qed.
Lemma at_rest_idx x : ss_in (sp_s s x) = true -> (at_rest s (body_of s x) -> In x (sp_sidx s)) /\ (~ at_rest s (body_of s x) -> In x (sp_didx s)).
Proof. intros Hx. destruct (C21_right_index s x Rs) as (A & B & _). split; intros D; [apply A|apply B]; split; auto. Qed.
Lemma reported x y : watched s x y -> bb_intersects (box_of (g_shape g' x)) (box_of (g_shape g' y)) = true -> In (x, y) rep \/ In (y, x) rep.
Proof.
  intros (Hx & Hy & N & A) B. apply times_in. destruct Sy as (Sd & Ss & Sb & _). pose proof (reindex_reports e0 (OMove (env_of g') :: h) order (st_valid _ _ _ _ _ _ _ _ _ St)) as (R1 & R2 & _ & _). cbn [SpecIndex.env_now members SpecIndex.indexed] in R1, R2.
  assert (ST : forall z, In z (sp_sidx s) -> SpecIndex.indexed e0 false z h = Some (box_of (g_shape g' z))). { intros z Hz. rewrite (Sb z Hz). f_equal. symmetry. now apply (st_still _ _ _ _ _ _ _ _ _ St). }
  assert (K : forall x y, ss_in (sp_s s x) = true -> ss_in (sp_s s y) = true -> x <> y -> ~ at_rest s (body_of s x) -> bb_intersects (box_of (g_shape g' x)) (box_of (g_shape g' y)) = true -> times x y rep = 1).
  { clear x y Hx Hy N A B. intros x y Hx Hy N A B. assert (Dx : In x (sp_didx s)) by (apply (at_rest_idx x Hx); exact A).
    destruct (in_dec Nat.eq_dec y (sp_didx s)) as [Dy|Dy]; [apply R1; auto; now apply Sd|].
    assert (Sy' : In y (sp_sidx s)). { destruct (reach_ok s Rs) as [I _]. apply (i_sidx _ _ I). split; [exact Hy|]. destruct (kind s (ss_body (sp_s s y))) eqn:K; auto; right; intros E; apply Dy; apply (i_didx _ _ I); repeat split; congruence. }
    apply R2 with (box_of (g_shape g' y)); auto; [now apply Sd|now apply Ss]. }
  destruct A as [A|A]; [rewrite (K x y); auto|]. assert (Q : times x y rep = times y x rep). { unfold times. f_equal. apply filter_ext. intros p. apply orb_comm. }
  rewrite Q, (K y x); auto. rewrite <- B. apply intersects_sym.
Qed.
Variable s' : Space TM.
Hypothesis Ex : exec s (Step dt mv thr hits) = Some s'.
Lemma touch x y : watched s x y -> may_touch s g' x y -> bb_intersects (box_of (g_shape g' x)) (box_of (g_shape g' y)) = true -> meet g' x y -> meet g' y x ->
  contact (sp_log s') x y = Some Refused \/ exists p, contact (sp_log s') x y = Some (Touching p) /\ p <> Fresh.
Proof.
  intros W M B M1 M2. destruct (reach_ok s Rs) as [I _].
  assert (K : exists q, In q (collide_pairs s g' ids rep) /\ same_pair x y (fst q) (snd q) = true).
  { destruct (reported x y W B) as [P|P].
    - destruct (collide_one_some s g' ids x y) as (q & Q); [now apply query_reject_iff|exact M1|]. exists q. split; [apply in_pairs; eauto|]. now apply collide_one_pair in Q.
    - destruct (collide_one_some s g' ids y x) as (q & Q); [apply query_reject_iff; auto; split; [now apply may_touch_sym|rewrite <- B; apply intersects_sym]|exact M2|]. exists q. split; [apply in_pairs; eauto|]. apply collide_one_pair in Q as (_ & Q & _).
      apply pair_eqb_iff in Q. apply pair_eqb_iff. tauto. }
  destruct K as (q & K1 & K2). apply in_hits in K1 as (k & Hk & ->). cbn [fst snd] in K2. rewrite (contact_pair _ x y (h_a k) (h_b k) K2).
  apply (C29_touching s dt mv thr hits s' k Rs step_legal Ex Hk). apply pair_eqb_iff in K2. destruct K2 as [[<- <-]|[<- <-]]; [apply M|apply collides_sym, M].
Qed.
Lemma apart x y : watched s x y -> ~ (at_rest s' (body_of s x) /\ at_rest s' (body_of s y)) ->
  ~ may_touch s g' x y \/ bb_intersects (box_of (g_shape g' x)) (box_of (g_shape g' y)) = false \/ (miss g' x y /\ miss g' y x) ->
  contact (sp_log s') x y = Some Apart.
Proof.
  intros (Hx & Hy & N & A) A' D. destruct (reach_ok s Rs) as [I _]. apply (C29_separated s dt mv thr hits s' x y Rs step_legal Ex); [|tauto|exact A'].
  intros k Hk C. destruct (same_pair x y (h_a k) (h_b k)) eqn:SP; auto. exfalso.
  assert (P : In (h_a k, h_b k) (collide_pairs s g' ids rep)) by (apply in_hits; eauto). apply in_pairs in P as ([a b] & _ & Q). apply collide_one_pair in Q as (Q1 & Q2 & sw & info & Q3 & Q4). cbn [fst snd] in Q2.
  apply query_reject_iff in Q1 as [Q1 Q5]; [|exact I]. apply pair_eqb_iff in SP, Q2.
  assert (E : (a = x /\ b = y) \/ (a = y /\ b = x)) by intuition congruence. destruct E as [[-> ->]|[-> ->]].
  - destruct D as [D|[D|[D _]]]; [auto|congruence|]. apply Q4. exact (D _ _ _ Q3).
  - destruct D as [D|[D|[_ D]]]; [apply D; now apply may_touch_sym| |]; [rewrite intersects_sym in Q5; congruence|]. apply Q4. exact (D _ _ _ Q3).
Qed.
End Step.

Lemma world_ok s h g : world g0 s h g -> reachable (T := TM) s /\ valid e0 h /\ in_sync g0 h s g.
Proof.
  induction 1 as [s S0 E0|s h g o s' l W IH NS L E F V Y|s h g g' l W IH F V Y|s h g g' order ids dt mv thr hits s' l W IH St E h' F V Y].
  - split; [exists s; split; [exact S0|constructor]|]. split; [exact E0|]. destruct S0 as (k & sh & co & sb & _ & ->). unfold in_sync. cbn. tauto.
  - destruct IH as ((s0 & S0 & R) & _ & _). split; [|split; assumption]. exists s0. split; [exact S0|]. now apply reach_S with s o.
  - destruct IH as (R & _ & _). split; [exact R|split; assumption].
  - destruct IH as (R & _ & Y0). split; [|split; assumption]. pose proof (step_legal s h g g' order ids dt mv thr hits R Y0 St) as L. destruct R as (s0 & S0 & R). exists s0. split; [exact S0|]. now apply reach_S with s (Step dt mv thr hits).
Qed.

(** the trees can always be brought back in sync with the space *)
Definition gone (l l' : list nat) : list nat := filter (fun x => negb (memb x l')) l.
Lemma gone_in l l' x : In x (gone l l') <-> In x l /\ ~ In x l'.
Proof. unfold gone. rewrite filter_In, negb_true_iff. destruct (memb_spec x l'); intuition congruence. Qed.
Lemma removes (d : bool) L : forall h : list (op T), valid e0 h -> NoDup L -> (forall x, In x L -> In x (members d h)) ->
  let h' := map (ORemove d) L ++ h in
  valid e0 h' /\ env_now e0 h' = env_now e0 h /\ (forall x, In x (members d h') <-> In x (members d h) /\ ~ In x L) /\ (forall x, In x (members (negb d) h') <-> In x (members (negb d) h)) /\
  (forall k x, indexed e0 k x h' = indexed e0 k x h).
Proof.
  induction L as [|y L IH]; intros h V N M; cbn [map app]; [splits; auto; intros; cbn [In] in *; tauto|]. apply NoDup_cons_iff in N as [Ny N].
  destruct (IH h V N (fun x D => M x (or_intror D))) as (V' & E & M1 & M2 & B). cbn [SpecIndex.valid allowed SpecIndex.env_now members SpecIndex.indexed]. rewrite Bool.eqb_reflx. splits; auto.
  - apply M1. split; [apply M; now left|exact Ny].
  - intros x. assert (RM : In x (remove Nat.eq_dec y (members d (map (ORemove d) L ++ h))) <-> In x (members d (map (ORemove d) L ++ h)) /\ x <> y) by (split; [apply in_remove|intros [? ?]; now apply in_in_remove]).
    rewrite RM, M1. cbn [In]. intuition congruence.
  - intros x. assert (Bool.eqb (negb d) d = false) as -> by (destruct d; reflexivity). apply M2.
Qed.
Lemma inserts (d : bool) L : forall h : list (op T), valid e0 h -> NoDup L -> (forall x, In x L -> ~ In x (members true h) /\ ~ In x (members false h)) ->
  let h' := map (OInsert d) L ++ h in
  valid e0 h' /\ env_now e0 h' = env_now e0 h /\ (forall x, In x (members d h') <-> In x L \/ In x (members d h)) /\ (forall x, In x (members (negb d) h') <-> In x (members (negb d) h)) /\
  (forall x, In x L -> indexed e0 d x h' = Some (cur (env_now e0 h) x)) /\ (forall k x, k <> d \/ ~ In x L -> indexed e0 k x h' = indexed e0 k x h).
Proof.
  induction L as [|y L IH]; intros h V N M; cbn [map app]; [splits; auto; intros; cbn [In] in *; tauto|]. apply NoDup_cons_iff in N as [Ny N].
  destruct (IH h V N (fun x D => M x (or_intror D))) as (V' & E & M1 & M2 & B & B2). cbn [SpecIndex.valid allowed SpecIndex.env_now members SpecIndex.indexed]. rewrite Bool.eqb_reflx. cbn [andb]. splits; auto.
  - destruct (M y (or_introl eq_refl)) as [P Q]. destruct d; cbn [negb] in M2; first [rewrite M1; tauto|rewrite M2; tauto].
  - destruct (M y (or_introl eq_refl)) as [P Q]. destruct d; cbn [negb] in M2; first [rewrite M1; tauto|rewrite M2; tauto].
  - intros x. cbn [In]. rewrite M1. intuition congruence.
  - intros x. assert (Bool.eqb (negb d) d = false) as -> by (destruct d; reflexivity). apply M2.
  - intros x Hx. destruct (Nat.eqb_spec x y) as [->|D]; [now rewrite E|]. apply B. destruct Hx; [congruence|assumption].
  - intros k x D. destruct (Bool.eqb k d && (x =? y)) eqn:Q; [|apply B2; cbn [In] in D; tauto]. apply andb_true_iff in Q as [Q1 Q2]. apply Bool.eqb_prop in Q1. apply Nat.eqb_eq in Q2. subst. destruct D as [D|D]; [congruence|]. destruct D. now left.
Qed.
Lemma resync s (h : list (op T)) (s' : Space TM) g : valid e0 h -> Core s [] -> Core s' [] -> env_now e0 h = env_of g ->
  (forall x, In x (members true h) <-> In x (sp_didx s)) -> (forall x, In x (members false h) <-> In x (sp_sidx s)) -> (forall x, In x (sp_sidx s) -> indexed e0 false x h = Some (box_of (g_shape g x))) ->
  exists l, Forall index_call l /\ valid e0 (l ++ h) /\ in_sync g0 (l ++ h) s' g.
Proof.
  intros V I I' E Sd Ss Sb.
  assert (DJ : forall q : Space TM, Core q [] -> forall x, In x (sp_didx q) -> In x (sp_sidx q) -> False). { intros q Iq x X1 X2. apply (i_didx _ _ Iq) in X1. apply (i_sidx _ _ Iq) in X2. intuition congruence. }
  assert (ND : forall (l l' : list nat), NoDup l -> NoDup (gone l l')) by (intros; now apply NoDup_filter).
  destruct (removes false (gone (sp_sidx s) (sp_sidx s')) h V) as (V1 & E1 & M1 & N1 & B1); [apply ND, I|intros x X; apply Ss; now apply gone_in in X|]. set (h1 := map (ORemove false) _ ++ h) in *.
  destruct (removes true (gone (sp_didx s) (sp_didx s')) h1 V1) as (V2 & E2 & M2 & N2 & B2); [apply ND, I|intros x X; apply (N1 x); apply Sd; now apply gone_in in X|]. set (h2 := map (ORemove true) _ ++ h1) in *. cbn [negb] in *.
  assert (Q2 : forall x, In x (members true h2) <-> In x (sp_didx s) /\ In x (sp_didx s')). { intros x. rewrite M2, N1, Sd, gone_in. destruct (in_dec Nat.eq_dec x (sp_didx s')); tauto. }
  assert (P2 : forall x, In x (members false h2) <-> In x (sp_sidx s) /\ In x (sp_sidx s')). { intros x. rewrite N2, M1, Ss, gone_in. destruct (in_dec Nat.eq_dec x (sp_sidx s')); tauto. }
  destruct (inserts true (gone (sp_didx s') (sp_didx s)) h2 V2) as (V3 & E3 & M3 & N3 & _ & B3); [apply ND, I'| |].
  { intros x X. apply gone_in in X as [X1 X2]. rewrite Q2, P2. split; [tauto|]. intros [_ D]. exact (DJ s' I' x X1 D). }
  set (h3 := map (OInsert true) _ ++ h2) in *. cbn [negb] in *.
  destruct (inserts false (gone (sp_sidx s') (sp_sidx s)) h3 V3) as (V4 & E4 & M4 & N4 & B4 & C4); [apply ND, I'| |].
  { intros x X. apply gone_in in X as [X1 X2]. rewrite M3, N3, Q2, P2, gone_in. split; [|tauto]. intros D. apply (DJ s' I' x); tauto. }
  set (h4 := map (OInsert false) _ ++ h3) in *. cbn [negb] in *.
  exists (map (OInsert false) (gone (sp_sidx s') (sp_sidx s)) ++ map (OInsert true) (gone (sp_didx s') (sp_didx s)) ++ map (ORemove true) (gone (sp_didx s) (sp_didx s')) ++ map (ORemove false) (gone (sp_sidx s) (sp_sidx s'))).
  rewrite <- !app_assoc. fold h1 h2 h3 h4. split.
  { rewrite !Forall_app. repeat split; apply Forall_forall; intros o O; apply in_map_iff in O as (? & <- & _); exact Logic.I. }
  split; [exact V4|]. unfold in_sync. splits.
  - intros x. rewrite N4, M3, Q2, gone_in. destruct (in_dec Nat.eq_dec x (sp_didx s)); tauto.
  - intros x. rewrite M4, N3, P2, gone_in. destruct (in_dec Nat.eq_dec x (sp_sidx s)); tauto.
  - intros x X. destruct (in_dec Nat.eq_dec x (sp_sidx s)) as [D|D].
    + rewrite C4 by (right; rewrite gone_in; tauto). rewrite B3 by (left; discriminate). rewrite B2, B1. now apply Sb.
    + rewrite B4 by (now apply gone_in). now rewrite E3, E2, E1, E.
  - now rewrite E4, E3, E2, E1.
Qed.
Lemma call_goes_on s h g o : world g0 s h g -> ~ is_step o -> legal s o -> exists s' l, exec s o = Some s' /\ world (TM := TM) g0 s' (l ++ h) g.
Proof.
  intros W N L. destruct (world_ok s h g W) as (R & V & Y1 & Y2 & Y3 & Y4). destruct (reach_ok s R) as [I P]. destruct (exec_ok s o I P L) as (s' & E & I' & _).
  destruct (resync s h s' g V I I' Y4 Y1 Y2 Y3) as (l & F & V' & Y'). exists s', l. split; [exact E|]. now apply w_call with s o.
Qed.
Lemma step_goes_on s h g g' order ids dt mv thr hits : world g0 s h g -> stepping g0 s h g g' order ids thr hits ->
  exists s' l, exec s (Step dt mv thr hits) = Some s' /\ world (TM := TM) g0 s' (l ++ OReindexQuery order :: OMove (env_of g') :: h) g'.
Proof.
  intros W St. destruct (world_ok s h g W) as (R & V & Y). destruct (reach_ok s R) as [I P]. pose proof (step_legal s h g g' order ids dt mv thr hits R Y St) as L. destruct (exec_ok s _ I P L) as (s' & E & I' & _).
  destruct Y as (Y1 & Y2 & Y3 & Y4). destruct (resync s (OReindexQuery order :: OMove (env_of g') :: h) s' g' (st_valid _ _ _ _ _ _ _ _ _ St) I I' eq_refl Y1 Y2) as (l & F & V' & Y').
  { intros x X. cbn [SpecIndex.indexed]. rewrite (Y3 x X). f_equal. symmetry. now apply (st_still _ _ _ _ _ _ _ _ _ St). }
  exists s', l. split; [exact E|]. now apply w_step with s g ids dt mv thr hits.
Qed.
End W.
