(** Model/BBTreeHeap.v does what Model/BBTree.v says, operation by operation. *)
From Coq Require Import ZArith Arith Bool List Lia Permutation.
From Verif Require Import Num.
From Verif.Model Require Import Vector BB BBTree Threads BBTreeHeap.
From Verif.Proofs Require Import Util ThreadsPf BBHeapPairs BBTreeInv BBTreePairs BBTreeHist BBHeapNodes BBHeapZip BBHeapMark.
Import ListNotations.
Local Open Scope nat_scope.
Opaque POOLED_BUFFER_SIZE.

Section T.
Context {T : Type} {NT : Num T}.
Notation B := (BB T).
Notation tree := (tree T).
Notation leaf := (leaf T).
Notation nheap := (nheap T).
Notation hidx := (hidx T).
Notation index := (index T).
Notation atree := (@atree T).
Notation trees := (bool -> option atree).

(** ** NewLeaf *)
Lemma new_leaf_side (h : nheap) d r t q id b : side h d r t [] q -> 0 < nfresh h ->
  exists h' x q', h_new_leaf h d id b = (h', x) /\ side h' d r t [(x, mkLeaf id b 0)] q' /\
    moved d h h' (mine t [] q) (mine t [(x, mkLeaf id b 0)] q') /\ n_par (nd h' x) = None /\ ~ In x (oaddrs t) /\ (In x (mine t [] q) \/ nfresh h <= x) /\ ngrow h h' q q'.
Proof.
  intros [S1 S2 S3 S4 S5 S6] Pos. unfold mine in *. cbn [map app fst] in *.
  apply nodup_app_iff in S5 as (N1 & N2 & N3).
  destruct (node_from_pool_ok h d q) as (h1 & x & q1 & E & A1 & A2 & A3 & A4 & Ag); auto.
  { intros y Hy. apply S6. apply in_or_app. auto. }
  unfold h_new_leaf. rewrite E. set (h2 := set_nd h1 x _).
  assert (Hx : ~ In x (oaddrs t)).
  { intros Hx. destruct A4 as [_ M _ _ _]. destruct (M x (or_introl eq_refl)) as [K|K]; [now apply (N3 x)|]. assert (0 < x < nfresh h) by (apply S6; apply in_or_app; auto). lia. }
  assert (Old : forall y, In y (oaddrs t) -> nd h2 y = nd h y).
  { intros y Hy. unfold h2, set_nd. cbn [nd]. unfold put. rewrite (proj2 (Nat.eqb_neq y x)) by (intros ->; auto).
    apply A4; [apply S6; apply in_or_app; auto|now apply N3]. }
  pose proof A2 as A2'. apply NoDup_cons_iff in A2' as (Nx & Nq).
  assert (Fr2 : nfresh h2 = nfresh h1) by reflexivity.
  assert (Nd2 : forall y, y <> x -> nd h2 y = nd h1 y) by (intros y Ny; unfold h2, set_nd; cbn [nd]; unfold put; now rewrite (proj2 (Nat.eqb_neq y x))).
  assert (X2 : leaf_at h2 x (mkLeaf id b 0) /\ n_par (nd h2 x) = None) by (unfold h2, leaf_at, set_nd; cbn [nd]; unfold put; rewrite Nat.eqb_refl; cbn; auto).
  assert (Po2 : npool h2 = npool h1) by reflexivity. clearbody h2.
  exists h2, x, q1. split; [reflexivity|]. split; [constructor|split; [|split; [|split; [|split]]]]; try tauto.
  - destruct t as [t|]; cbn [oaddrs] in *; [|exact Logic.I]. destruct S2 as (T1 & T2). split; [|rewrite Old; auto using root_in].
    apply (tree_in_same h); auto.
  - intros y l [Ey|[]]. injection Ey as <- <-. tauto.
  - unfold pool_in. rewrite Po2. apply (chain_ext (fun y => n_par (nd h1 y))); [|exact A1]. intros y Hy. rewrite Nd2; [reflexivity|]. intros ->. tauto.
  - unfold mine. cbn [map app fst]. apply nodup_app_iff. sp; auto. intros y Hy H. destruct A4 as [_ M _ _ _]. destruct (M y H) as [K|K]; [now apply (N3 y)|]. assert (0 < y < nfresh h) by (apply S6; apply in_or_app; auto). lia.
  - unfold mine. cbn [map app fst]. intros y Hy. rewrite Fr2. apply in_app_iff in Hy as [Hy|Hy]; [|now apply A3]. destruct A4 as [_ _ M _ _]. assert (0 < y < nfresh h) by (apply S6; apply in_or_app; auto). lia.
  - destruct A4 as [M1 M2 M3 M4 M5]. constructor.
    + intros y Ly Ny. rewrite in_app_iff in Ny. rewrite Nd2; [apply M1; tauto|]. intros ->. destruct (M2 x (or_introl eq_refl)) as [K|K]; [tauto|lia].
    + unfold mine. cbn [map app fst]. intros y Hy. rewrite in_app_iff in *. destruct Hy as [Hy|Hy]; [tauto|]. destruct (M2 y Hy); tauto.
    + now rewrite Fr2.
    + now rewrite Po2.
    + unfold mine. cbn [map app fst length] in *. rewrite !app_length in *. cbn [length] in *. rewrite Fr2. lia.
  - destruct A4 as [_ M _ _ _]. rewrite in_app_iff. destruct (M x (or_introl eq_refl)); auto.
  - unfold ngrow in *. now rewrite Fr2.
Qed.

(** ** inserting a loose leaf, and its stamp *)
Lemma nd_stamp (h : nheap) x s y : y <> x -> nd (set_stamp h x s) y = nd h y.
Proof. intros N. unfold set_stamp, set_nd. cbn [nd]. unfold put. now rewrite (proj2 (Nat.eqb_neq y x)). Qed.
Lemma insert_stamped (h : nheap) d r t x l q s : side h d r t [(x, l)] q -> (t = None -> n_par (nd h x) = None) -> ~ In (lid l) (lids (oaleaves t)) -> NoDup (lids (oaleaves t)) ->
  exists h1 t' q', h_subtree_insert (nfresh h) h d r x = Some (h1, root t') /\
    side (set_stamp h1 x s) d (Some (root t')) (Some t') [] q' /\ moved d h (set_stamp h1 x s) (mine t [(x, l)] q) (mine (Some t') [] q') /\
    Some (erase t') = root_insert (option_map erase t) (mkLeaf (lid l) (lbb l) s) /\ Permutation (aleaves t') ((x, mkLeaf (lid l) (lbb l) s) :: oaleaves t) /\ ngrow h h1 q q'.
Proof.
  intros S Hn Nl Nd. destruct (insert_side h d r t x l [] q S Hn) as (h1 & t1 & q1 & A1 & A2 & A3 & A4 & A5 & A6).
  destruct (find_ctx t1 x l) as (c & ->); [apply (Permutation_in _ (Permutation_sym A5)); now left|].
  set (l' := mkLeaf (lid l) (lbb l) s).
  assert (Hl1 : leaf_at h1 x l).
  { destruct A2 as [_ Q _ _ _ _]. destruct Q as (Q & _). eapply leaf_in; [exact Q|]. apply (Permutation_in _ (Permutation_sym A5)). now left. }
  destruct (leaf_side h1 (set_stamp h1 x s) d (Some (root (plug c (ALeaf x l)))) c x l l' [] q1) as (C1 & C2); auto.
  { intros y Ny. now apply nd_stamp. }
  { unfold set_stamp, set_nd. cbn [nd]. unfold put. now rewrite Nat.eqb_refl. }
  { destruct Hl1 as (L1 & L2 & L3). unfold leaf_at, set_stamp, set_nd. cbn [nd]. unfold put. rewrite Nat.eqb_refl. cbn. auto. }
  assert (Er : root (plug c (ALeaf x l)) = root (plug c (ALeaf x l'))) by (destruct C1 as [Q _ _ _ _ _]; cbn in Q; now injection Q).
  pose proof (plug_leaves c (ALeaf x l)) as P1. pose proof (plug_leaves c (ALeaf x l')) as P2. cbn [aleaves app] in P1, P2.
  assert (P3 : Permutation (cleaves c) (oaleaves t)) by (apply (Permutation_cons_inv (a := (x, l))); now rewrite <- P1, <- A5).
  exists h1, (plug c (ALeaf x l')), q1. rewrite <- Er. sp; auto.
  - eapply moved_trans; [exact A3|exact C2].
  - apply (restamp t c x l l'); auto. intros H. apply Nl. unfold lids in *. now rewrite <- P3.
  - rewrite P2. now rewrite P3.
Qed.

(** ** the whole state *)
Definition ids (t : trees) : list (nat * nat) := idl (oaleaves (t true) ++ oaleaves (t false)).
Definition disj (t : trees) (q : bool -> list nat) : Prop := forall d y, In y (mine (t d) [] (q d)) -> ~ In y (mine (t (negb d)) [] (q (negb d))).
Record Rel (hs : hidx) (s : index) (t : trees) (q : bool -> list nat) (pl : list apair) (pq : list nat) : Prop := mkRel {
  rl_side : forall d, side (hn hs) d (hroot hs d) (t d) [] (q d);
  rl_disj : disj t q;
  rl_pos : 0 < nfresh (hn hs);
  rl_tree : forall d, get_tree d s = option_map erase (t d);
  rl_stamp : hstamp hs = stamp s;
  rl_pairs : prepr (hp hs) pl pq;
  rl_prel : prel (ids t) pl (pairs s);
  rl_leaf : forall d id x, hleaf hs d id = Some x <-> In (x, id) (idl (oaleaves (t d)));
  rl_nodup : forall d, NoDup (lids (oaleaves (t d) ++ oaleaves (t (negb d)))) }.
(** memory: every node and pair made is in use or in a free list; [N], [P]: the largest numbers of leaves and pairs so far *)
Record Mem (N : bool -> nat) (P : nat) (hs : hidx) (t : trees) (q : bool -> list nat) (pl : list apair) (pq : list nat) : Prop := mkMem {
  me_all : forall d, length (mine (t d) [] (q d)) + length (mine (t (negb d)) [] (q (negb d))) + 1 = nfresh (hn hs);
  me_leaf : forall d, length (oaleaves (t d)) <= N d;
  me_mine : forall d, length (mine (t d) [] (q d)) <= 2 * N d + S POOLED_BUFFER_SIZE;
  me_pl : length pl <= P;
  me_full : length pl + length pq = pfresh (hp hs);
  me_pb : pfresh (hp hs) <= P + S POOLED_BUFFER_SIZE }.
Definition R (N : bool -> nat) (P : nat) (hs : hidx) (s : index) : Prop := exists t q pl pq, Rel hs s t q pl pq /\ Mem N P hs t q pl pq.
Definition fits (N : bool -> nat) (P : nat) (s : index) : Prop := (forall d, length (oleaves (get_tree d s)) <= N d) /\ length (pairs s) <= P.
Lemma forall2_len {A C} (Q : A -> C -> Prop) l1 l2 : Forall2 Q l1 l2 -> length l1 = length l2.
Proof. intros F. induction F; cbn; lia. Qed.
Lemma filter_len {A} (f : A -> bool) l : length (filter f l) <= length l.
Proof. induction l as [|a l IH]; cbn; [lia|]. destruct (f a); cbn; lia. Qed.
Lemma tree_size (t : atree) : length (aaddrs t) + 1 = 2 * length (aleaves t).
Proof. induction t as [x l|x b a IHa c IHc]; cbn; [lia|]. rewrite !app_length. lia. Qed.
Lemma otree_size (t : option atree) : length (oaddrs t) <= 2 * length (oaleaves t).
Proof. destruct t as [t|]; cbn; [|lia]. pose proof (tree_size t). lia. Qed.
Lemma mem_tree N N' P hs hs2 (t : trees) q pl pq d t1 q1 : Mem N P hs t q pl pq -> moved d (hn hs) (hn hs2) (mine (t d) [] (q d)) (mine t1 [] q1) ->
  (nfresh (hn hs2) = nfresh (hn hs) \/ length q1 <= POOLED_BUFFER_SIZE) -> (forall d, N d <= N' d) -> length (oaleaves t1) <= N' d -> pfresh (hp hs2) = pfresh (hp hs) ->
  Mem N' P hs2 (put2 t d t1) (put2 q d q1) pl pq.
Proof.
  intros [A1 A2 A3 A4 A5 A6] [_ _ _ _ Ml] G Le Ll Ep. constructor; rewrite ?Ep; auto.
  - intros d'. destruct (bool_dec d' d) as [->|Ne]; [rewrite !put2_eq, !put2_neg; specialize (A1 d); lia|]. assert (d' = negb d) as -> by (destruct d, d'; cbn; congruence).
    rewrite !put2_neg, negb_involutive, !put2_eq. specialize (A1 d). lia.
  - intros d'. destruct (bool_dec d' d) as [->|Ne]; [now rewrite put2_eq|]. rewrite put2_ne by auto. specialize (A2 d'). specialize (Le d'). lia.
  - intros d'. destruct (bool_dec d' d) as [->|Ne]; [|rewrite !put2_ne by auto; specialize (A3 d'); specialize (Le d'); lia]. rewrite !put2_eq.
    destruct G as [G|G]; [specialize (A3 d); specialize (Le d); lia|]. pose proof (otree_size t1) as Ts. unfold mine. rewrite !app_length. cbn [map length]. lia.
Qed.
Lemma mem_pairs N P P' hs (t : trees) q pl pq p' pl' pq' : Mem N P hs t q pl pq -> pgrow (hp hs) p' pl pl' pq pq' -> P <= P' -> length pl' <= P' -> Mem N P' (set_hp hs p') t q pl' pq'.
Proof.
  intros [A1 A2 A3 A4 A5 A6] G Le Lp. destruct (G A5) as (G1 & G2). constructor; cbn [hp hn set_hp]; auto. destruct G2 as [G2|G2]; lia.
Qed.
Lemma mem_clear N P hs hs2 (t : trees) q pl pq pl' pq' : Mem N P hs t q pl pq -> hn hs2 = hn hs -> pfresh (hp hs2) = pfresh (hp hs) -> length pl' + length pq' = length pl + length pq -> length pl' <= length pl -> Mem N P hs2 t q pl' pq'.
Proof. intros [A1 A2 A3 A4 A5 A6] E1 E2 E3 E4. constructor; rewrite ?E1, ?E2; auto; lia. Qed.

Lemma in_ids (t : trees) p : In p (ids t) <-> exists d, In p (idl (oaleaves (t d))).
Proof.
  unfold ids, idl. rewrite map_app, in_app_iff. split; [intros [H|H]; eauto|]. intros ([|] & H); auto.
Qed.
Lemma ids_nodup_any (t : trees) d : NoDup (lids (oaleaves (t d) ++ oaleaves (t (negb d)))) -> forall d', NoDup (lids (oaleaves (t d') ++ oaleaves (t (negb d')))).
Proof.
  intros N d'. destruct (bool_dec d' d) as [->|Ne]; [exact N|]. assert (d' = negb d) as -> by (destruct d, d'; cbn; congruence). rewrite negb_involutive.
  unfold lids in *. eapply Permutation_NoDup; [|exact N]. apply Permutation_map, Permutation_app_comm.
Qed.
Lemma nodup_leaf_addr (t : atree) : NoDup (aaddrs t) -> NoDup (map fst (aleaves t)).
Proof.
  induction t as [x l|x b a IHa c IHc]; cbn; [intros _; repeat constructor; auto|]. intros N. apply NoDup_cons_iff in N as (_ & N). apply nodup_app_iff in N as (N1 & N2 & N3).
  rewrite map_app. apply nodup_app_iff. sp; auto. intros y H1 H2. apply in_map_iff in H1 as ([u m] & <- & H1), H2 as ([v k] & E & H2). cbn in *. subst v.
  apply (N3 u); eapply aleaves_addr; eauto.
Qed.
Lemma oaleaves_addr (t : option atree) x l : In (x, l) (oaleaves t) -> In x (oaddrs t).
Proof. destruct t; cbn; [apply aleaves_addr|tauto]. Qed.
Lemma in_mine (t : option atree) x l q : In (x, l) (oaleaves t) -> In x (mine t [] q).
Proof. intros H. unfold mine. apply in_or_app. left. eapply oaleaves_addr; eauto. Qed.
Lemma sides_bij (h : nheap) r (t : trees) q : (forall d, side h d (r d) (t d) [] (q d)) -> disj t q -> (forall d, NoDup (lids (oaleaves (t d) ++ oaleaves (t (negb d))))) -> bij (ids t).
Proof.
  intros S D N. unfold bij, ids, idl. rewrite !map_map. cbn [fst snd]. split; [|exact (N true)]. rewrite map_app. apply nodup_app_iff.
  assert (N1 : forall d, NoDup (map fst (oaleaves (t d)))).
  { intros d. destruct (S d) as [_ _ _ _ S5 _]. unfold mine in S5. apply nodup_app_iff in S5 as (S5 & _). destruct (t d); [now apply nodup_leaf_addr|constructor]. }
  sp; try apply N1. intros y H1 H2. apply in_map_iff in H1 as ([u m] & <- & H1), H2 as ([v k] & E & H2). cbn in *. subst v.
  apply (D true u); eapply in_mine; eauto.
Qed.
Lemma sides_obj (h : nheap) r (t : trees) q : (forall d, side h d (r d) (t d) [] (q d)) -> forall y j, In (y, j) (ids t) -> n_obj (nd h y) = Some j.
Proof.
  intros S y j H. apply in_ids in H as (d & H). apply idl_inv in H as (l & H & <-). destruct (S d) as [_ S2 _ _ _ _]. destruct (t d) as [u|]; [|destruct H]. destruct S2 as (S2 & _). apply (leaf_in h u y l S2 H).
Qed.
Lemma rel_bij hs s t q pl pq : Rel hs s t q pl pq -> bij (ids t).
Proof. intros H. eapply sides_bij; [apply H|apply H|apply H]. Qed.

(** one tree changes *)
Lemma both (h h' : nheap) d (r : bool -> option nat) r' (t : trees) t1 q q1 : (forall d, side h d (r d) (t d) [] (q d)) -> disj t q ->
  side h' d r' t1 [] q1 -> moved d h h' (mine (t d) [] (q d)) (mine t1 [] q1) ->
  (forall d', side h' d' (put2 r d r' d') (put2 t d t1 d') [] (put2 q d q1 d')) /\ disj (put2 t d t1) (put2 q d q1).
Proof.
  intros S D S1 M. destruct (side_frame h h' d (r (negb d)) (t (negb d)) [] (q (negb d)) _ _ (S (negb d)) M) as (F1 & F2); [intros y Hy; now apply D|].
  split.
  - intros d'. destruct (bool_dec d' d) as [->|Ne]; [now rewrite !put2_eq|]. assert (d' = negb d) as -> by (destruct d, d'; cbn; congruence). now rewrite !put2_neg.
  - intros d' y Hy. destruct (bool_dec d' d) as [->|Ne].
    + rewrite !put2_neg. rewrite !put2_eq in Hy. now apply F2.
    + assert (d' = negb d) as -> by (destruct d, d'; cbn; congruence). rewrite !put2_neg in Hy. rewrite negb_involutive, !put2_eq. intros H. now apply (F2 y).
Qed.

(** ** LeafAddPairs *)
Lemma set_hp_id (hs : hidx) : set_hp hs (hp hs) = hs.
Proof. now destruct hs. Qed.
Lemma rel_pairs hs s t q pl pq p' ps' pl' pq' : Rel hs s t q pl pq -> prepr p' pl' pq' -> prel (ids t) pl' ps' -> Rel (set_hp hs p') (set_pairs s ps') t q pl' pq'.
Proof. intros [] P F. constructor; auto. Qed.
Lemma add_pairs_rel d hs s t q pl pq x l : Rel hs s t q pl pq -> In (x, l) (oaleaves (t d)) ->
  exists p' pl' pq', h_add_pairs d hs x = Some (set_hp hs p') /\ Rel (set_hp hs p') (set_pairs s (leaf_add_pairs d s l)) t q pl' pq' /\ pgrow (hp hs) p' pl pl' pq pq'.
Proof.
  intros H Hx. pose proof (rel_bij _ _ _ _ _ _ H) as Bj. pose proof H as [Sd Dj Po Tr St Pr Fl Lf Nd].
  assert (Ob := sides_obj _ _ _ _ Sd).
  assert (Hi : forall d, incl (idl (oaleaves (t d))) (ids t)) by (intros d' p Hp; apply in_ids; eauto).
  assert (Len : forall d u, t d = Some u -> length (aaddrs u) <= nfresh (hn hs)).
  { intros d' u E. destruct (Sd d') as [_ _ _ _ S5 S6]. rewrite E in *. unfold mine in *. cbn [oaddrs] in *. apply nodup_app_iff in S5 as (S5 & _). apply inside_len; [exact S5|]. intros y Hy. apply S6. apply in_or_app. auto. }
  unfold h_add_pairs, leaf_add_pairs. pose proof (Tr true) as Td. pose proof (Tr false) as Ts. cbn [get_tree] in Td, Ts. destruct d.
  - destruct (t true) as [u|] eqn:Eu; [|destruct Hx]. cbn [oaleaves option_map] in *. destruct (find_ctx u x l Hx) as (c & Ec).
    pose proof (Sd true) as S1. pose proof (Sd false) as S2. rewrite Eu in S1. rewrite Ec in S1, Td.
    assert (Rf : hroot hs false = option_map root (t false)) by apply S2. rewrite Rf, Td, Ts, St.
    destruct (mark_leaf_in (ids t) (hn hs) c x l (t false) (stamp s) (hp hs) [] pl pq (pairs s)) as ([p' r'] & pl' & pq' & A1 & A2 & A3 & A4 & A5); auto.
    + now destruct (sd_tree _ _ _ _ _ _ S1).
    + now destruct (sd_tree _ _ _ _ _ _ S1).
    + pose proof (sd_tree _ _ _ _ _ _ S2) as Q. destruct (t false); tauto.
    + apply nodup_app_iff. pose proof (sd_nodup _ _ _ _ _ _ S1) as Q1. pose proof (sd_nodup _ _ _ _ _ _ S2) as Q2. unfold mine in Q1, Q2. apply nodup_app_iff in Q1 as (Q1 & _), Q2 as (Q2 & _).
      sp; auto. intros y H1 H2. apply (Dj true y); unfold mine; apply in_or_app; left; [rewrite Eu, Ec; exact H1|exact H2].
    + intros y Hy. apply in_app_iff in Hy as [Hy|Hy]; [apply (sd_in _ _ _ _ _ _ S1)|apply (sd_in _ _ _ _ _ _ S2)]; unfold mine; apply in_or_app; auto.
    + rewrite <- Ec. specialize (Hi true). now rewrite Eu in Hi.
    + pose proof (Nd true) as N. rewrite Eu in N. cbn [oaleaves] in N. unfold lids in *. rewrite map_app in N. apply nodup_app_iff in N as (N & _). now rewrite <- Ec.
    + rewrite A1. cbn [fst snd] in *. exists p', pl', pq'. split; [reflexivity|]. split; [eapply rel_pairs; eauto|exact A5].
  - pose proof (Sd true) as S1. pose proof (Sd false) as S2. rewrite (sd_root _ _ _ _ _ _ S1), Td. destruct (t true) as [u|] eqn:Eu; cbn [option_map] in *.
    + assert (Hl : leaf_at (hn hs) x l) by (pose proof (sd_tree _ _ _ _ _ _ S2) as Q; destruct (t false) as [v|]; [|destruct Hx]; apply (leaf_in _ v); tauto).
      rewrite (mlq_in u (nfresh (hn hs)) (hn hs) x l true false (hp hs, [])); auto; [|now apply (Len true)|now destruct (sd_tree _ _ _ _ _ _ S1)].
      assert (G : Forall (agood (ids t)) (amlq u x l true)).
      { apply amlq_good; [apply (Hi false); now apply idl_in|specialize (Hi true); now rewrite Eu in Hi|]. intros Hu. apply (Dj true x); [unfold mine; rewrite Eu; apply in_or_app; auto|]. eapply in_mine; eauto. }
      destruct (arun_ok (ids t) _ (hp hs) [] pl pq (pairs s) Pr Fl G) as (pl' & pq' & A & C & _ & G'). destruct (arun (hp hs, []) (amlq u x l true)) as (p', r'). cbn [fst] in *.
      rewrite amlq_erase in C. exists p', pl', pq'. split; [reflexivity|]. split; [eapply rel_pairs; eauto|exact G'].
    + exists (hp hs), pl, pq. rewrite set_hp_id. split; [reflexivity|]. split; [destruct s; exact H|]. intros K. auto.
Qed.
Lemma rel_inc hs s t q pl pq : Rel hs s t q pl pq -> Rel (h_inc_stamp hs) (inc_stamp s) t q pl pq.
Proof. intros []. constructor; auto. cbn. now f_equal. Qed.

(** ** queries *)
Lemma query_rel N P hs s d b : R N P hs s -> hx_query hs d b = Some (ix_query (get_tree d s) b).
Proof.
  intros (t & q & pl & pq & H & _). pose proof (rl_side _ _ _ _ _ _ H d) as [S1 S2 _ _ S5 S6]. unfold hx_query. rewrite S1, (rl_tree _ _ _ _ _ _ H d). destruct (t d) as [u|]; cbn [option_map]; [|reflexivity].
  cbn [ix_query]. apply query_in; [|tauto]. unfold mine in *. cbn [oaddrs] in *. apply nodup_app_iff in S5 as (S5 & _). apply inside_len; [exact S5|]. intros y Hy. apply S6. apply in_or_app. auto.
Qed.
Lemma seg_query_rel {S : Type} N P hs s d (f : S -> nat -> S * T) a b st te : R N P hs s -> hx_segment_query hs d f a b st te = Some (ix_segment_query f (get_tree d s) a b st te).
Proof.
  intros (t & q & pl & pq & H & _). pose proof (rl_side _ _ _ _ _ _ H d) as [S1 S2 _ _ S5 S6]. unfold hx_segment_query. rewrite S1, (rl_tree _ _ _ _ _ _ H d). destruct (t d) as [u|]; cbn [option_map]; [|reflexivity].
  cbn [ix_segment_query]. rewrite seg_query_in; [destruct (subtree_segment_query f (erase u) a b st te); reflexivity| |tauto].
  unfold mine in *. cbn [oaddrs] in *. apply nodup_app_iff in S5 as (S5 & _). apply inside_len; [exact S5|]. intros y Hy. apply S6. apply in_or_app. auto.
Qed.
Lemma rel_new N P : R N P hi_new empty_index.
Proof.
  exists (fun _ => None), (fun _ => []), [], []. split; [|constructor; cbn; intros; lia]. constructor.
  - intros d. constructor; cbn; auto; [tauto|constructor|intros y []].
  - intros d y [].
  - cbn. lia.
  - now intros [|].
  - reflexivity.
  - constructor; cbn; auto; [tauto|constructor|tauto].
  - constructor.
  - intros d id x. cbn. split; [discriminate|tauto].
  - intros d. cbn. constructor.
Qed.
End T.
Section T2.
Context {T : Type} {NT : Num T}.
Notation B := (BB T).
Notation tree := (tree T).
Notation leaf := (leaf T).
Notation nheap := (nheap T).
Notation hidx := (hidx T).
Notation index := (index T).
Notation atree := (@atree T).
Notation trees := (bool -> option atree).

Lemma tree_ids (t : option atree) : map lid (oleaves (option_map erase t)) = lids (oaleaves t).
Proof. destruct t as [t|]; [apply erase_ids|reflexivity]. Qed.
Lemma idl_perm (L L' : list (nat * leaf)) p : Permutation L L' -> In p (idl L) -> In p (idl L').
Proof. intros P. apply Permutation_in. now apply Permutation_map. Qed.
Lemma idl_lids (L : list (nat * leaf)) x i : In (x, i) (idl L) -> In i (lids L).
Proof. intros H. apply idl_inv in H as (l & H & <-). unfold lids. apply in_map_iff. exists (x, l). auto. Qed.
Lemma lst_none I pl ps x : prel I pl ps -> ~ In x (map fst I) -> lst pl x = [].
Proof.
  intros F N. unfold lst. induction F as [|p q l1 l2 (P1 & P2) F IH]; cbn; [reflexivity|].
  assert (touch x p = false) as ->; [|exact IH].
  unfold touch. apply orb_false_iff. split; apply Nat.eqb_neq; intros <-; apply N; apply in_map_iff; eexists; split; [|exact P1| |exact P2]; reflexivity.
Qed.
Lemma get_set d d' (s : index) t : get_tree d' (set_tree d s t) = put2 (fun d => get_tree d s) d t d'.
Proof. destruct d, d'; reflexivity. Qed.
Lemma put2_map {A C} (f : A -> C) (g : bool -> A) d v d' : f (put2 g d v d') = put2 (fun d => f (g d)) d (f v) d'.
Proof. unfold put2. now destruct (Bool.eqb d' d). Qed.
Lemma put2_ext {A} (f g : bool -> A) d v d' : (forall d, f d = g d) -> put2 f d v d' = put2 g d v d'.
Proof. intros E. unfold put2. now destruct (Bool.eqb d' d). Qed.
Lemma stamp_set d (s : index) t : stamp (set_tree d s t) = stamp s.
Proof. now destruct d. Qed.
Lemma pairs_set d (s : index) t : pairs (set_tree d s t) = pairs s.
Proof. now destruct d. Qed.

Lemma insert_rel N N' P P' d e hs s id : R N P hs s -> (forall d, N d <= N' d) -> P <= P' -> fits N' P' (ix_insert d e s id) -> (forall d, ~ In id (map lid (oleaves (get_tree d s)))) ->
  exists hs', hx_insert d e hs id = Some hs' /\ R N' P' hs' (ix_insert d e s id).
Proof.
  intros (t & q & pl & pq & H & Hm) LN LP (F1 & F2) Nid. pose proof H as [Sd Dj Po Tr St Pr Fl Lf Nd].
  assert (Ni : forall d, ~ In id (lids (oaleaves (t d)))) by (intros d'; rewrite <- tree_ids, <- Tr; apply Nid).
  assert (Hl : hleaf hs d id = None).
  { destruct (hleaf hs d id) as [y|] eqn:E; [|reflexivity]. apply Lf in E. apply idl_lids in E. now apply Ni in E. }
  set (b := get_bb d e id).
  destruct (new_leaf_side (hn hs) d (hroot hs d) (t d) (q d) id b (Sd d) Po) as (h1 & x & q1 & A1 & A2 & A3 & A4 & A5 & A6 & A7).
  assert (Ndd : NoDup (lids (oaleaves (t d)))) by (specialize (Nd d); unfold lids in *; rewrite map_app in Nd; now apply nodup_app_iff in Nd).
  destruct (insert_stamped h1 d (hroot hs d) (t d) x (mkLeaf id b 0) q1 (hstamp hs) A2 (fun _ => A4) (Ni d) Ndd) as (h2 & t1 & q2 & B1 & B2 & B3 & B4 & B5 & B6).
  cbn [lid lbb] in *. unfold hx_insert. rewrite Hl. fold b. rewrite A1. cbn [set_leaf set_hp set_hn hn hp hroot hleaf hstamp]. rewrite B1.
  cbn [set_root set_hn hn hp hroot hleaf hstamp].
  pose proof (moved_trans _ _ _ _ _ _ _ A3 B3) as M.
  destruct (both (hn hs) (set_stamp h2 x (hstamp hs)) d (hroot hs) (Some (root t1)) t (Some t1) q q2 Sd Dj B2 M) as (C1 & C2).
  set (l := mkLeaf id b (hstamp hs)) in *.
  set (hs2 := mkHI (set_stamp h2 x (hstamp hs)) (with_th (hp hs) (set_list (pth (hp hs)) x None)) (put2 (hroot hs) d (Some (root t1))) (put2 (hleaf hs) d (put (hleaf hs d) id (Some x))) (hstamp hs)).
  set (s1 := set_tree d s (root_insert (get_tree d s) l)).
  assert (Rl : Rel hs2 s1 (put2 t d (Some t1)) (put2 q d q2) pl pq).
  { constructor.
    - exact C1.
    - exact C2.
    - cbn. destruct M as [_ _ M _ _]. cbn in M. lia.
    - intros d'. unfold s1. rewrite get_set, (put2_map (option_map erase)). cbn [option_map]. rewrite B4, Tr. now apply put2_ext.
    - unfold s1. now rewrite stamp_set.
    - cbn [hp hs2]. apply (prepr_ext _ (hp hs) _ pl pq pq Pr); auto; try apply Pr.
      intros n _. cbn [pth with_th set_list th_list]. unfold put. destruct (Nat.eqb_spec n x) as [->|Nn]; [|reflexivity].
      destruct (pr_list _ _ _ _ Pr x Logic.I) as (E & _). rewrite E, (lst_none _ _ _ x Fl); [reflexivity|].
      intros Hx. apply in_map_iff in Hx as ([y j] & <- & Hx). cbn [fst] in *. apply in_ids in Hx as (d' & Hx). apply idl_inv in Hx as (m & Hx & _).
      destruct (bool_dec d' d) as [->|Ne]; [apply A5; eapply oaleaves_addr; eauto|]. assert (d' = negb d) as -> by (destruct d, d'; cbn; congruence).
      destruct A6 as [A6|A6]; [apply (Dj d y A6); eapply in_mine; eauto|]. pose proof (sd_in _ _ _ _ _ _ (Sd (negb d)) y (in_mine _ _ _ _ Hx)) as K. lia.
    - unfold s1. rewrite pairs_set. eapply prel_mono; [|exact Fl]. intros p Hp. apply in_ids in Hp as (d' & Hp). apply in_ids. exists d'.
      unfold put2. destruct (Bool.eqb d' d) eqn:Ed; [|exact Hp]. apply eqb_prop in Ed as ->. cbn [oaleaves]. apply (idl_perm _ _ _ (Permutation_sym B5)). now right.
    - intros d' id' y. cbn [hleaf hs2]. destruct (bool_dec d' d) as [->|Ne]; [|rewrite !put2_ne by auto; apply Lf]. rewrite !put2_eq. unfold put. cbn [oaleaves].
      destruct (Nat.eqb_spec id' id) as [->|Nj].
      + split.
        * intros E. injection E as <-. apply (idl_perm _ _ _ (Permutation_sym B5)). now left.
        * intros Hy. apply (idl_perm _ _ _ B5) in Hy as [E|Hy]; [now injection E as ->|]. apply idl_lids in Hy. now apply Ni in Hy.
      + rewrite Lf. split; intros Hy.
        * apply (idl_perm _ _ _ (Permutation_sym B5)). now right.
        * apply (idl_perm _ _ _ B5) in Hy as [E|Hy]; [|exact Hy]. cbn in E. congruence.
    - apply (ids_nodup_any _ d). rewrite put2_eq, put2_neg. cbn [oaleaves]. specialize (Nd d). unfold lids in *.
      eapply Permutation_NoDup; [apply Permutation_map; apply Permutation_app_tail; symmetry; exact B5|]. cbn. constructor; [|exact Nd].
      rewrite map_app, in_app_iff. intros [K|K]; eapply Ni; exact K. }
  destruct (add_pairs_rel d hs2 s1 _ _ pl pq x l Rl) as (p3 & pl' & pq' & D1 & D2 & D3).
  { rewrite put2_eq. cbn [oaleaves]. apply (Permutation_in _ (Permutation_sym B5)). now left. }
  match goal with |- context [h_add_pairs d ?z x] => change z with hs2 end. rewrite D1. exists (h_inc_stamp (set_hp hs2 p3)). split; [reflexivity|].
  assert (Es : ix_insert d e s id = inc_stamp (set_pairs s1 (leaf_add_pairs d s1 l))) by (unfold ix_insert; fold b; rewrite <- St; reflexivity).
  rewrite Es in *. exists (put2 t d (Some t1)), (put2 q d q2), pl', pq'. split; [apply rel_inc; exact D2|].
  assert (Hm2 : Mem N' P hs2 (put2 t d (Some t1)) (put2 q d q2) pl pq).
  { eapply mem_tree; [exact Hm|exact M| |exact LN| |reflexivity].
    - unfold ngrow in *. cbn [hn hs2]. change (nfresh (set_stamp h2 x (hstamp hs))) with (nfresh h2). lia.
    - specialize (F1 d). assert (G : forall (s : index) p, get_tree d (inc_stamp (set_pairs s p)) = get_tree d s) by (intros; now destruct d). rewrite G in F1.
      rewrite (rl_tree _ _ _ _ _ _ Rl d), put2_eq in F1. cbn [option_map oleaves] in F1. rewrite erase_leaves, map_length in F1. exact F1. }
  pose proof (mem_pairs _ _ P' _ _ _ _ _ _ _ _ Hm2 D3 LP) as Hm3.
  assert (Lp : length pl' <= P') by (pose proof (rl_prel _ _ _ _ _ _ D2) as Fp; apply forall2_len in Fp; rewrite Fp; exact F2).
  destruct (Hm3 Lp) as [Q1 Q2 Q3 Q4 Q5 Q6]. constructor; auto.
Qed.

(** ** Remove *)
Lemma remove_rel N P d hs s id : R N P hs s -> In id (map lid (oleaves (get_tree d s))) -> exists hs', hx_remove d hs id = Some hs' /\ R N P hs' (ix_remove d s id).
Proof.
  intros (t & q & pl & pq & H & Hm) Hid. pose proof (rel_bij _ _ _ _ _ _ H) as Bj. pose proof H as [Sd Dj Po Tr St Pr Fl Lf Nd].
  rewrite Tr, tree_ids in Hid. unfold lids in Hid. apply in_map_iff in Hid as ([x l] & El & Hx). cbn [snd] in El. subst id.
  assert (Hl : hleaf hs d (lid l) = Some x) by (apply Lf; now apply idl_in).
  assert (Hxi : In (x, lid l) (ids t)) by (apply in_ids; exists d; now apply idl_in).
  destruct (t d) as [u|] eqn:Eu; [|destruct Hx]. cbn [oaleaves] in Hx. destruct (find_ctx u x l Hx) as (c & Ec). subst u.
  pose proof (Sd d) as S1. rewrite Eu in S1. pose proof (sd_root _ _ _ _ _ _ S1) as Er. cbn [option_map] in Er.
  assert (Pl : Permutation (aleaves (plug c (ALeaf x l))) ((x, l) :: cleaves c)) by apply (plug_leaves c (ALeaf x l)).
  pose proof (Nd d) as Ndd. rewrite Eu in Ndd. cbn [oaleaves] in Ndd.
  assert (Nl : NoDup (lids ((x, l) :: cleaves c ++ oaleaves (t (negb d))))).
  { exact (Permutation_NoDup (Permutation_map (fun p : nat * leaf => lid (snd p)) (Permutation_app_tail (oaleaves (t (negb d))) Pl)) Ndd). }
  cbn in Nl. apply NoDup_cons_iff in Nl as (Nl & Nl'). fold (lids (cleaves c ++ oaleaves (t (negb d)))) in Nl, Nl'.
  assert (Nlc : ~ In (lid l) (lids (cleaves c))) by (intros K; apply Nl; unfold lids in *; rewrite map_app; apply in_or_app; auto).
  rewrite Er in S1. destruct (remove_side _ _ _ _ _ _ _ S1 Nlc) as (h1 & t1 & q1 & A1 & A2 & A3 & A4 & A5 & A6 & A7).
  destruct (clear_repr (hp hs) pl pq x Pr) as (p1 & pq1 & B1 & B2 & B3 & B4).
  destruct (side_recycle _ _ _ _ _ _ _ _ A2) as (C1 & C2).
  unfold hx_remove. rewrite Hl. cbn [set_leaf hn hp hroot]. rewrite Er, A1. cbn [set_leaf set_root set_hn hn hp hroot]. rewrite B1. cbn [set_hp set_hn hn hp hroot hleaf hstamp].
  pose proof (moved_trans _ _ _ _ _ _ _ A3 C2) as M.
  rewrite <- Eu in M.
  destruct (both (hn hs) (recycle_node h1 d x) d (hroot hs) (option_map root t1) t t1 q (x :: q1) Sd Dj C1 M) as (D1 & D2).
  eexists. split; [reflexivity|]. exists (put2 t d t1), (put2 q d (x :: q1)), (filter (fun e => negb (touch x e)) pl), pq1.
  split.
  2:{ eapply mem_clear with (hs := mkHI (recycle_node h1 d x) (hp hs) (hroot hs) (hleaf hs) 0); [|reflexivity|exact B3|exact B4|apply filter_len].
      eapply mem_tree; [exact Hm|exact M|left; exact A7|auto| |reflexivity].
      pose proof (me_leaf _ _ _ _ _ _ _ Hm d) as L0. rewrite Eu in L0. cbn [oaleaves] in L0. apply Permutation_length in A5, Pl. rewrite A5. cbn in Pl. lia. }
  constructor; cbn [hn hp hroot hleaf hstamp].
  - exact D1.
  - exact D2.
  - destruct M as [_ _ M _ _]. change (nfresh (hn (set_hn hs (recycle_node h1 d x)))) with (nfresh h1) in *. eapply Nat.lt_le_trans; [exact Po|exact M].
  - intros d'. unfold ix_remove. assert (G : forall (s : index) p, get_tree d' (set_pairs s p) = get_tree d' s) by (intros; now destruct d'). rewrite G, get_set, (put2_map (option_map erase)).
    assert (Ex : root_remove (get_tree d s) (lid l) = option_map erase t1).
    { rewrite Tr, Eu. cbn [option_map root_remove]. now rewrite (remove_plug c x l Nlc), A4. }
    rewrite Ex. now apply put2_ext.
  - unfold ix_remove. cbn [stamp set_pairs]. now rewrite stamp_set.
  - exact B2.
  - unfold ix_remove. cbn [pairs set_pairs]. rewrite pairs_set. eapply prel_clear; [exact Bj|exact Hxi| |exact Fl].
    intros y j Hy Ny. apply in_ids in Hy as (d' & Hy). apply in_ids. exists d'. unfold put2. destruct (Bool.eqb d' d) eqn:Ed; [|exact Hy]. apply eqb_prop in Ed as ->.
    rewrite Eu in Hy. cbn [oaleaves] in Hy. apply (idl_perm _ _ _ (Permutation_sym A5)). apply (idl_perm _ _ _ Pl) in Hy as [E|Hy]; [|exact Hy]. cbn in E. congruence.
  - intros d' id' y. cbn [set_leaf set_root set_hn set_hp hleaf]. destruct (bool_dec d' d) as [->|Ne]; [|rewrite !put2_ne by auto; apply Lf]. rewrite !put2_eq. unfold put.
    destruct (Nat.eqb_spec id' (lid l)) as [->|Ni].
    + split; [discriminate|]. intros Hy. apply (idl_perm _ _ _ A5) in Hy. apply idl_lids in Hy. tauto.
    + rewrite Lf, Eu. cbn [oaleaves]. split; intros Hy.
      * apply (idl_perm _ _ _ (Permutation_sym A5)). apply (idl_perm _ _ _ Pl) in Hy as [E|Hy]; [|exact Hy]. cbn in E. congruence.
      * apply (idl_perm _ _ _ (Permutation_sym Pl)). right. now apply (idl_perm _ _ _ A5).
  - apply (ids_nodup_any _ d). rewrite put2_eq, put2_neg. exact (Permutation_NoDup (Permutation_map (fun p : nat * leaf => lid (snd p)) (Permutation_app_tail (oaleaves (t (negb d))) (Permutation_sym A5))) Nl').
Qed.
End T2.
Section T3.
Context {T : Type} {NT : Num T}.
Notation B := (BB T).
Notation tree := (tree T).
Notation leaf := (leaf T).
Notation nheap := (nheap T).
Notation hidx := (hidx T).
Notation index := (index T).
Notation atree := (@atree T).
Notation trees := (bool -> option atree).

Lemma lid_inj (L : list (nat * leaf)) x y l m : NoDup (lids L) -> In (x, l) L -> In (y, m) L -> lid l = lid m -> l = m.
Proof.
  unfold lids. induction L as [|[z k] L IH]; cbn; [tauto|]. intros N. apply NoDup_cons_iff in N as (N1 & N2). intros [E|H] [E'|H'] E0; try congruence; [| |eauto].
  - injection E as -> ->. exfalso. apply N1. apply in_map_iff. exists (y, m). auto.
  - injection E' as -> ->. exfalso. apply N1. apply in_map_iff. exists (x, l). auto.
Qed.
Lemma find_leaf_rel d (hs : hidx) s t q pl pq x l : Rel hs s t q pl pq -> In (x, l) (oaleaves (t d)) -> find_leaf (get_tree d s) (lid l) = Some l.
Proof.
  intros H Hx. assert (Nd : NoDup (lids (oaleaves (t d)))) by (pose proof (rl_nodup _ _ _ _ _ _ H d) as N; unfold lids in *; rewrite map_app in N; now apply nodup_app_iff in N).
  assert (El : oleaves (option_map erase (t d)) = map snd (oaleaves (t d))) by (destruct (t d); [apply erase_leaves|reflexivity]).
  rewrite (rl_tree _ _ _ _ _ _ H d). destruct (find_leaf _ (lid l)) as [m|] eqn:E.
  - apply find_leaf_in in E as (E1 & E2). rewrite El in E1. apply in_map_iff in E1 as ([y k] & E3 & E1). cbn in E3. subst k. f_equal. symmetry. eapply lid_inj; eauto.
  - exfalso. apply find_leaf_none in E. apply E. unfold BBTreeInv.ids. rewrite El, map_map. apply in_map_iff. exists (x, l). auto.
Qed.
Lemma find_leaf_absent d (hs : hidx) s t q pl pq id : Rel hs s t q pl pq -> hleaf hs d id = None -> find_leaf (get_tree d s) id = None.
Proof.
  intros H Hn. destruct (find_leaf (get_tree d s) id) as [m|] eqn:E; [|reflexivity]. exfalso. apply find_leaf_in in E as (E1 & <-).
  assert (El : oleaves (option_map erase (t d)) = map snd (oaleaves (t d))) by (destruct (t d); [apply erase_leaves|reflexivity]).
  rewrite (rl_tree _ _ _ _ _ _ H d), El in E1. apply in_map_iff in E1 as ([y k] & E3 & E1). cbn in E3. subst k.
  pose proof (proj2 (rl_leaf _ _ _ _ _ _ H d (lid m) y) (idl_in _ _ _ E1)). congruence.
Qed.

Lemma nd_nbb (h : nheap) x b y : y <> x -> nd (set_nbb h x b) y = nd h y.
Proof. intros N. unfold set_nbb, set_nd. cbn [nd]. unfold put. now rewrite (proj2 (Nat.eqb_neq y x)). Qed.

Lemma leaf_update_rel N P d e (hs : hidx) s t q pl pq x l : Rel hs s t q pl pq -> Mem N P hs t q pl pq -> In (x, l) (oaleaves (t d)) ->
  exists hs' b t' q' pl' pq', h_leaf_update d e hs x = Some (hs', b) /\
    Rel hs' (fst (leaf_update d e s (lid l))) t' q' pl' pq' /\ Mem N P hs' t' q' pl' pq' /\ hleaf hs' = hleaf hs /\
    match snd (leaf_update d e s (lid l)) with Some l' => b = true /\ In (x, l') (oaleaves (t' d)) | None => b = false end.
Proof.
  intros H Hm Hx. pose proof (find_leaf_rel _ _ _ _ _ _ _ _ _ H Hx) as Ef. pose proof (rel_bij _ _ _ _ _ _ H) as Bj. pose proof H as [Sd Dj Po Tr St Pr Fl Lf Nd].
  assert (Hxi : In (x, lid l) (ids t)) by (apply in_ids; exists d; now apply idl_in).
  unfold leaf_update. rewrite Ef. destruct (t d) as [u|] eqn:Eu; [|destruct Hx]. cbn [oaleaves] in Hx. destruct (find_ctx u x l Hx) as (c & Ec). subst u.
  pose proof (Sd d) as S1. rewrite Eu in S1.
  destruct (leaf_in (hn hs) _ x l (proj1 (sd_tree _ _ _ _ _ _ S1)) Hx) as (L1 & L2 & L3).
  unfold h_leaf_update. rewrite L1, L2. destruct (bb_contains (lbb l) (cur e (lid l))).
  { exists hs, false, t, q, pl, pq. cbn [fst snd]. auto. }
  set (b := get_bb d e (lid l)). set (l0 := mkLeaf (lid l) b (lstamp l)).
  assert (Pl : Permutation (aleaves (plug c (ALeaf x l))) ((x, l) :: cleaves c)) by apply (plug_leaves c (ALeaf x l)).
  pose proof (Nd d) as Ndd. rewrite Eu in Ndd. cbn [oaleaves] in Ndd.
  assert (Nl : NoDup (lids ((x, l) :: cleaves c ++ oaleaves (t (negb d))))).
  { exact (Permutation_NoDup (Permutation_map (fun p : nat * leaf => lid (snd p)) (Permutation_app_tail (oaleaves (t (negb d))) Pl)) Ndd). }
  cbn in Nl. apply NoDup_cons_iff in Nl as (Nl & Nl'). fold (lids (cleaves c ++ oaleaves (t (negb d)))) in Nl, Nl'.
  assert (Nlc : ~ In (lid l0) (lids (cleaves c))) by (intros K; apply Nl; unfold lids in *; rewrite map_app; apply in_or_app; auto).
  destruct (leaf_side (hn hs) (set_nbb (hn hs) x b) d _ c x l l0 [] (q d) S1) as (Z1 & Z2).
  { intros y Ny. now apply nd_nbb. }
  { unfold set_nbb, set_nd. cbn [nd]. unfold put. now rewrite Nat.eqb_refl. }
  { unfold leaf_at, set_nbb, set_nd. cbn [nd]. unfold put. rewrite Nat.eqb_refl. cbn. auto. }
  { reflexivity. }
  { reflexivity. }
  pose proof (sd_root _ _ _ _ _ _ Z1) as Er. cbn [option_map] in Er. rewrite Er in Z1.
  destruct (remove_side _ _ _ _ _ _ _ Z1 Nlc) as (h1 & t1 & q1 & A1 & A2 & A3 & A4 & A5 & A6 & A7).
  assert (N1 : ~ In (lid l0) (lids (oaleaves t1))) by (intros K; apply Nlc; unfold lids in *; now rewrite <- A5).
  assert (N2 : NoDup (lids (oaleaves t1))).
  { unfold lids in Nl'. rewrite map_app in Nl'. apply nodup_app_iff in Nl' as (Nl' & _). exact (Permutation_NoDup (Permutation_map _ (Permutation_sym A5)) Nl'). }
  destruct (insert_stamped h1 d _ t1 x l0 q1 (hstamp hs) A2 A6 N1 N2) as (h2 & t2 & q2 & B1 & B2 & B3 & B4 & B5 & B6).
  cbn [lid lbb l0] in B4, B5. set (l' := mkLeaf (lid l) b (hstamp hs)) in *.
  destruct (clear_repr (hp hs) pl pq x Pr) as (p1 & pq1 & C1 & C2 & C3 & C4).
  rewrite Er, A1, B1. cbn [set_root set_hn hn hp hroot hleaf hstamp]. rewrite C1. cbn [set_hp hn hp hroot hleaf hstamp].
  pose proof (moved_trans _ _ _ _ _ _ _ (moved_trans _ _ _ _ _ _ _ Z2 A3) B3) as M. rewrite <- Eu in M.
  destruct (both (hn hs) (set_stamp h2 x (hstamp hs)) d (hroot hs) (Some (root t2)) t (Some t2) q q2 Sd Dj B2 M) as (D1 & D2).
  assert (P2 : Permutation (idl (aleaves t2)) (idl (aleaves (plug c (ALeaf x l))))).
  { unfold idl. rewrite (Permutation_map _ B5), (Permutation_map _ Pl). cbn. constructor. now apply Permutation_map. }
  eexists _, true, (put2 t d (Some t2)), (put2 q d q2), (filter (fun e => negb (touch x e)) pl), pq1. split; [reflexivity|]. cbn [fst snd]. split; [|split; [|split; [reflexivity|]]].
  2:{ eapply mem_clear with (hs := mkHI (set_stamp h2 x (hstamp hs)) (hp hs) (hroot hs) (hleaf hs) 0); [|reflexivity|exact C3|exact C4|apply filter_len].
      eapply mem_tree; [exact Hm|exact M| |auto| |reflexivity].
      - unfold ngrow in B6. cbn [hn]. change (nfresh (set_stamp h2 x (hstamp hs))) with (nfresh h2). change (nfresh (set_nbb (hn hs) x b)) with (nfresh (hn hs)) in A7. lia.
      - pose proof (me_leaf _ _ _ _ _ _ _ Hm d) as L0. rewrite Eu in L0. cbn [oaleaves] in *. apply Permutation_length in A5, Pl, B5. rewrite B5. cbn in *. lia. }
  2:{ split; [reflexivity|]. rewrite put2_eq. cbn [oaleaves]. apply (Permutation_in _ (Permutation_sym B5)). left. unfold l', b. now rewrite St. }
  assert (Iff : forall d' p, In p (idl (oaleaves (put2 t d (Some t2) d'))) <-> In p (idl (oaleaves (t d')))).
  { intros d' p. destruct (bool_dec d' d) as [->|Ne]; [|now rewrite put2_ne]. rewrite put2_eq, Eu. cbn [oaleaves]. split; apply Permutation_in; [exact P2|now symmetry]. }
  constructor; cbn [hn hp hroot hleaf hstamp].
  - exact D1.
  - exact D2.
  - destruct M as [_ _ M _ _]. eapply Nat.lt_le_trans; [exact Po|exact M].
  - intros d'. assert (G : forall (s : index) p, get_tree d' (set_pairs s p) = get_tree d' s) by (intros; now destruct d'). rewrite G, get_set, (put2_map (option_map erase)). cbn [option_map].
    assert (Ex : root_remove (get_tree d s) (lid l) = option_map erase t1).
    { rewrite Tr, Eu. cbn [option_map root_remove]. now rewrite (remove_plug c x l Nlc), A4. }
    rewrite Ex, B4. unfold l', b. rewrite St. now apply put2_ext.
  - cbn [stamp set_pairs]. now rewrite stamp_set.
  - exact C2.
  - cbn [pairs set_pairs]. rewrite pairs_set. eapply prel_clear; [exact Bj|exact Hxi| |exact Fl].
    intros y j Hy _. apply in_ids in Hy as (d' & Hy). apply in_ids. exists d'. now apply Iff.
  - intros d' id' y. cbn [set_hn set_hp set_root hleaf]. rewrite Lf. symmetry. apply Iff.
  - apply (ids_nodup_any _ d). rewrite put2_eq, put2_neg. cbn [oaleaves].
    assert (Eq : forall L : list (nat * leaf), lids L = map snd (idl L)) by (intros; unfold lids, idl; now rewrite map_map).
    rewrite Eq in *. unfold idl in *. rewrite map_app in *. exact (Permutation_NoDup (Permutation_map _ (Permutation_app_tail _ (Permutation_sym P2))) Ndd).
Qed.

Lemma mem_weaken N P P' (hs : hidx) t q pl pq : P <= P' -> Mem N P hs t q pl pq -> Mem N P' hs t q pl pq.
Proof. intros L []. constructor; auto; lia. Qed.
Lemma mem_inc N P (hs : hidx) t q pl pq : Mem N P hs t q pl pq -> Mem N P (h_inc_stamp hs) t q pl pq.
Proof. intros []. constructor; auto. Qed.
Lemma reindex_object_rel N P P' d e (hs : hidx) s id : R N P hs s -> P <= P' -> length (pairs (ix_reindex_object d e s id)) <= P' ->
  exists hs', hx_reindex_object d e hs id = Some hs' /\ R N P' hs' (ix_reindex_object d e s id).
Proof.
  intros (t & q & pl & pq & H & Hm) LP. unfold hx_reindex_object, ix_reindex_object. destruct (hleaf hs d id) as [x|] eqn:Hl.
  2:{ rewrite (find_leaf_absent _ _ _ _ _ _ _ _ H Hl). intros _. exists hs. split; [reflexivity|]. exists t, q, pl, pq. split; [exact H|]. now apply (mem_weaken _ P). }
  apply (rl_leaf _ _ _ _ _ _ H) in Hl. apply idl_inv in Hl as (l & Hl & <-). rewrite (find_leaf_rel _ _ _ _ _ _ _ _ _ H Hl).
  destruct (leaf_update_rel N P d e hs s t q pl pq x l H Hm Hl) as (hs1 & b & t1 & q1 & pl1 & pq1 & A1 & A2 & Am & A3 & A4). rewrite A1.
  destruct (leaf_update d e s (lid l)) as (s1, [l'|]); cbn [fst snd] in *; intros Lp.
  - destruct A4 as (-> & A4). destruct (add_pairs_rel d hs1 s1 _ _ _ _ x l' A2 A4) as (p2 & pl2 & pq2 & B1 & B2 & B3). rewrite B1. eexists. split; [reflexivity|]. exists t1, q1, pl2, pq2.
    split; [apply rel_inc; exact B2|]. apply mem_inc. eapply mem_pairs; [exact Am|exact B3|exact LP|]. pose proof (rl_prel _ _ _ _ _ _ B2) as Fp. apply forall2_len in Fp. rewrite Fp. exact Lp.
  - subst b. eexists. split; [reflexivity|]. exists t1, q1, pl1, pq1. split; [apply rel_inc; exact A2|]. apply mem_inc. now apply (mem_weaken _ P).
Qed.

Lemma update_all_rel N P e : forall order (hs : hidx) s, R N P hs s -> exists hs', h_update_all e hs order = Some hs' /\ R N P hs' (fold_left (fun s id => fst (leaf_update true e s id)) order s).
Proof.
  induction order as [|id order IH]; intros hs s Hr; cbn [h_update_all fold_left]; [eauto|]. pose proof Hr as (t & q & pl & pq & H & Hm).
  destruct (hleaf hs true id) as [x|] eqn:Hl.
  - apply (rl_leaf _ _ _ _ _ _ H) in Hl. apply idl_inv in Hl as (l & Hl & <-).
    destruct (leaf_update_rel N P true e hs s t q pl pq x l H Hm Hl) as (hs1 & b & t1 & q1 & pl1 & pq1 & A1 & A2 & A3 & A4). rewrite A1. apply IH. exists t1, q1, pl1, pq1. tauto.
  - unfold leaf_update at 2. rewrite (find_leaf_absent _ _ _ _ _ _ _ _ H Hl). cbn [fst]. now apply IH.
Qed.
Lemma leaf_update_root e (s : index) id : dyn s <> None -> dyn (fst (leaf_update true e s id)) <> None.
Proof. intros H. unfold leaf_update. destruct (find_leaf _ _); [|exact H]. destruct (bb_contains _ _); [exact H|]. cbn. discriminate. Qed.

Lemma reindex_query_rel N P P' e order (hs : hidx) s : R N P hs s -> P <= P' -> length (pairs (fst (ix_reindex_query e order s))) <= P' ->
  exists hs', hx_reindex_query e order hs = Some (hs', snd (ix_reindex_query e order s)) /\ R N P' hs' (fst (ix_reindex_query e order s)).
Proof.
  intros Hr LP. pose proof Hr as (t0 & q0 & pl0 & pq0 & H0 & Hm0). unfold hx_reindex_query, ix_reindex_query.
  pose proof (sd_root _ _ _ _ _ _ (rl_side _ _ _ _ _ _ H0 true)) as R0. pose proof (rl_tree _ _ _ _ _ _ H0 true) as T0. cbn [get_tree] in T0. rewrite R0, T0.
  destruct (t0 true) as [u0|] eqn:Eu0; cbn [option_map] in *; [|intros _; exists hs; split; [reflexivity|]; exists t0, q0, pl0, pq0; split; [exact H0|now apply (mem_weaken _ P)]].
  destruct (update_all_rel N P e order hs s Hr) as (hs1 & A1 & t & q & pl & pq & H & Hm). rewrite A1.
  assert (Ne : dyn (fold_left (fun s id => fst (leaf_update true e s id)) order s) <> None).
  { assert (K : dyn s <> None) by (rewrite T0; discriminate). clear - K. revert s K. induction order as [|id order IH]; intros s K; [exact K|]. cbn. apply IH. now apply leaf_update_root. }
  set (s1 := fold_left _ order s) in *. clearbody s1. pose proof (rel_bij _ _ _ _ _ _ H) as Bj. pose proof H as [Sd Dj Po Tr St Pr Fl Lf Nd].
  pose proof (Tr true) as Td. pose proof (Tr false) as Ts. cbn [get_tree] in Td, Ts. pose proof (Sd true) as S1. pose proof (Sd false) as S2.
  rewrite (sd_root _ _ _ _ _ _ S1), (sd_root _ _ _ _ _ _ S2), Td, Ts. destruct (t true) as [u|] eqn:Eu; cbn [option_map] in *; [|congruence].
  assert (Hi : forall d, incl (idl (oaleaves (t d))) (ids t)) by (intros d' p Hp; apply in_ids; eauto).
  pose proof (mark_subtree_in (ids t) (hn hs1) (t false) (stamp s1) (erase u)) as K.
  assert (Q1 := sd_nodup _ _ _ _ _ _ S1). assert (Q2 := sd_nodup _ _ _ _ _ _ S2). unfold mine in Q1, Q2. apply nodup_app_iff in Q1 as (Q1 & _), Q2 as (Q2 & _). cbn [oaddrs] in Q1.
  assert (K' := fun a b c d => K a b c d u [] (nfresh (hn hs1)) (hp hs1) [] pl pq (pairs s1) eq_refl). clear K. cbn [plug] in K'.
  unfold mark_subtree. destruct (fold_left _ (leaves (erase u)) (pairs s1, [])) as (ps', rep'). cbn [fst snd]. intros Lp.
  destruct K' as ([p' r'] & pl' & pq' & B1 & B2 & B3 & B4 & B5); auto.
  - pose proof (sd_tree _ _ _ _ _ _ S2) as Q. destruct (t false); tauto.
  - now apply (sides_obj _ _ _ _ Sd).
  - now destruct (sd_tree _ _ _ _ _ _ S1).
  - now destruct (sd_tree _ _ _ _ _ _ S1).
  - apply nodup_app_iff. sp; auto. intros y H1 H2. apply (Dj true y); unfold mine; apply in_or_app; left; [rewrite Eu; exact H1|exact H2].
  - intros y Hy. apply in_app_iff in Hy as [Hy|Hy]; [apply (sd_in _ _ _ _ _ _ S1)|apply (sd_in _ _ _ _ _ _ S2)]; unfold mine; apply in_or_app; auto.
  - specialize (Hi true). now rewrite Eu in Hi.
  - pose proof (Nd true) as N0. rewrite Eu in N0. cbn [oaleaves] in N0. unfold lids in *. rewrite map_app in N0. now apply nodup_app_iff in N0 as (N0 & _).
  - apply inside_len; [exact Q1|]. intros y Hy. apply (sd_in _ _ _ _ _ _ S1). unfold mine. apply in_or_app. auto.
  - cbn [fst snd] in *. subst r'. rewrite St, B1. eexists. split; [reflexivity|]. exists t, q, pl', pq'. split; [apply rel_inc; eapply rel_pairs; eauto|]. apply mem_inc. eapply mem_pairs; [exact Hm|exact B5|exact LP|]. apply forall2_len in B3. rewrite B3. exact Lp.
Qed.
Lemma R_weaken N N' P P' (hs : hidx) s : R N P hs s -> (forall d, N d <= N' d) -> P <= P' -> R N' P' hs s.
Proof.
  intros (t & q & pl & pq & H & [A1 A2 A3 A4 A5 A6]) LN LP. exists t, q, pl, pq. split; [exact H|]. constructor; auto; try lia.
  - intros d. specialize (A2 d). specialize (LN d). lia.
  - intros d. specialize (A3 d). specialize (LN d). lia.
Qed.
End T3.
