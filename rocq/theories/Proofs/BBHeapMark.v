(** Model/BBTreeHeap.v: inserting, marking and querying do what Model/BBTree.v says. *)
From Coq Require Import ZArith Arith Bool List Lia Permutation.
From Verif Require Import Num.
From Verif.Model Require Import Vector BB BBTree Threads BBTreeHeap.
From Verif.Proofs Require Import Util ThreadsPf BBHeapPairs BBTreeInv BBTreePairs BBHeapNodes BBHeapZip.
Import ListNotations.
Local Open Scope nat_scope.

Section M.
Context {T : Type} {NT : Num T}.
Notation B := (BB T).
Notation tree := (tree T).
Notation leaf := (leaf T).
Notation nheap := (nheap T).
Notation atree := (@atree T).
Notation frame := (@frame T).

Lemma leaf_in (h : nheap) : forall t x l, tree_in h t -> In (x, l) (aleaves t) -> leaf_at h x l.
Proof.
  induction t as [z m|z b a IHa c IHc]; cbn; intros x l Ht; [intros [E|[]]; injection E as <- <-; exact Ht|].
  intros H. apply in_app_iff in H as [H|H]; [apply IHa|apply IHc]; tauto.
Qed.

(** ** SubtreeInsert of a loose leaf *)
Lemma insert_side (h : nheap) d r t x l lo q : side h d r t ((x, l) :: lo) q -> (t = None -> n_par (nd h x) = None) ->
  exists h' t' q', h_subtree_insert (nfresh h) h d r x = Some (h', root t') /\ side h' d (Some (root t')) (Some t') lo q' /\
    moved d h h' (mine t ((x, l) :: lo) q) (mine (Some t') lo q') /\ Some (erase t') = root_insert (option_map erase t) l /\
    Permutation (aleaves t') ((x, l) :: oaleaves t) /\ ngrow h h' q q'.
Proof.
  intros [S1 S2 S3 S4 S5 S6] Hn. unfold mine in *. cbn [map fst app] in *. subst r.
  assert (Pos : 0 < nfresh h) by (assert (X : In x (oaddrs t ++ x :: map fst lo ++ q)) by (apply in_or_app; right; now left); apply S6 in X; lia).
  destruct t as [t|]; cbn [option_map oaddrs] in *.
  - destruct S2 as (Ht & Hp).
    assert (P : Permutation (aaddrs t ++ x :: map fst lo ++ q) (map fst lo ++ aaddrs t ++ x :: q)).
    { rewrite <- (Permutation_middle (aaddrs t)), (Permutation_app_swap_app (aaddrs t)). rewrite (Permutation_middle (map fst lo)). apply Permutation_app_head. apply Permutation_middle. }
    pose proof (Permutation_NoDup P S5) as N. apply nodup_app_iff in N as (Nl & N & Dl).
    assert (I : inside h (aaddrs t ++ x :: q)) by (intros y Hy; apply S6; apply (Permutation_in _ (Permutation_sym P)); apply in_or_app; auto).
    destruct (insert_in t (nfresh h) h d x l q) as (h' & t' & q' & A1 & A2 & A3 & A4 & A5 & A6 & A7 & A8 & A9 & A10 & A11); auto.
    { apply inside_len; [now apply nodup_app_iff in N|]. intros y Hy. apply I. apply in_or_app. auto. }
    { apply S3. now left. }
    pose proof (moved_more d h h' _ _ (map fst lo) A7) as A7'. destruct A7 as [M1 M2 M3 M4 M5].
    assert (Dl' : forall y, In y (map fst lo) -> ~ In y (aaddrs t' ++ q')).
    { intros y Hy H. apply M2 in H as [H|H]; [now apply (Dl y)|]. assert (In y (aaddrs t ++ x :: map fst lo ++ q)) as K by (rewrite !in_app_iff; cbn; rewrite in_app_iff; auto). apply S6 in K. lia. }
    assert (P' : Permutation (aaddrs t' ++ map fst lo ++ q') (map fst lo ++ aaddrs t' ++ q')) by apply Permutation_app_swap_app.
    exists h', t', q'. split; [exact A1|]. split; [constructor|split; [|split; [|split]]]; auto.
    + split; [exact A3|]. rewrite A9. destruct t; [reflexivity|exact Hp].
    + intros y m Hy. unfold leaf_at. assert (K : In y (map fst lo)) by (apply in_map_iff; exists (y, m); auto).
      rewrite M1; [apply S3; now right| |now apply Dl]. apply S6. rewrite !in_app_iff. cbn. rewrite in_app_iff. auto.
    + unfold mine. cbn [oaddrs]. apply (Permutation_NoDup (Permutation_sym P')). apply nodup_app_iff. auto.
    + unfold mine. cbn [oaddrs]. intros y Hy. apply (Permutation_in _ P') in Hy. apply in_app_iff in Hy as [Hy|Hy]; [|now apply A6].
      assert (K : In y (aaddrs t ++ x :: map fst lo ++ q)) by (rewrite !in_app_iff; cbn; rewrite in_app_iff; auto). apply S6 in K. lia.
    + apply (moved_equiv d h h' _ _ _ _ A7'); [intros y Hy; now apply (Permutation_in _ (Permutation_sym P))|intros y Hy; now apply (Permutation_in _ P')|now apply Permutation_length|].
      unfold mine. cbn [oaddrs]. now apply Permutation_length.
    + cbn. now rewrite A2.
  - exists h, (ALeaf x l), q. destruct (nfresh h) as [|k] eqn:Ek; [lia|]. cbn [h_subtree_insert root erase root_insert option_map aleaves]. rewrite <- Ek in *.
    split; [reflexivity|]. split; [constructor|split; [|split; [|split]]]; auto; [| | |left; auto].
    + cbn. split; [apply S3; now left|now apply Hn].
    + intros y m Hy. apply S3. now right.
    + apply moved_refl; [apply incl_refl|reflexivity].
Qed.

(** a leaf's own data is changed in place *)
Lemma leaf_side (h h' : nheap) d r c x l l' lo q : side h d r (Some (plug c (ALeaf x l))) lo q ->
  (forall y, y <> x -> nd h' y = nd h y) -> n_par (nd h' x) = n_par (nd h x) -> leaf_at h' x l' -> nfresh h' = nfresh h -> npool h' = npool h ->
  side h' d r (Some (plug c (ALeaf x l'))) lo q /\ moved d h h' (mine (Some (plug c (ALeaf x l))) lo q) (mine (Some (plug c (ALeaf x l'))) lo q).
Proof.
  intros [S1 S2 S3 S4 S5 S6] V Vp Vl Fr Po. apply plug_in in S2 as (Hl & Hp & Hc). cbn [root] in *.
  assert (Ea : forall c (t t' : atree), root t = root t' -> aaddrs t = aaddrs t' -> root (plug c t) = root (plug c t') /\ aaddrs (plug c t) = aaddrs (plug c t')).
  { clear. induction c as [|f c IH]; intros t t' E1 E2; [auto|]. cbn [plug]. apply IH; [now rewrite !root_node|]. unfold node_of. destruct (f_left f); cbn; now rewrite E2. }
  destruct (Ea c (ALeaf x l) (ALeaf x l') eq_refl eq_refl) as (E1 & E2).
  assert (Em : mine (Some (plug c (ALeaf x l'))) lo q = mine (Some (plug c (ALeaf x l))) lo q) by (unfold mine; cbn [oaddrs]; now rewrite E2).
  pose proof S5 as N. unfold mine in N. cbn [oaddrs] in N. pose proof (Permutation_NoDup (Permutation_app_tail _ (plug_addrs c (ALeaf x l))) N) as N'. cbn [aaddrs app] in N'.
  apply NoDup_cons_iff in N' as (Nx & N'). rewrite !in_app_iff in Nx. rewrite Em.
  split; [constructor|constructor]; auto.
  - rewrite S1. cbn. now rewrite E1.
  - apply plug_in. cbn [root tree_in]. rewrite Vp. sp; auto. apply (ctx_in_same h); auto; [|now apply nodup_app_iff in N'].
    intros y Hy. apply V. intros ->. tauto.
  - intros y m Hy. unfold leaf_at. rewrite V; [now apply S3|]. intros ->. apply Nx. right. left. apply in_map_iff. exists (x, m). auto.
  - unfold pool_in. rewrite Po. apply (chain_ext (fun x => n_par (nd h x))); [|exact S4]. intros y Hy. rewrite V; [reflexivity|]. intros ->. tauto.
  - now rewrite Em.
  - rewrite Em. unfold inside. now rewrite Fr.
  - intros y _ Ny. apply V. intros ->. apply Ny. unfold mine. cbn [oaddrs]. apply in_or_app. left. apply (Permutation_in _ (Permutation_sym (plug_addrs c (ALeaf x l)))). now left.
  - lia.
  - now rewrite Po.
Qed.

(** ** on values: another stamp on the inserted leaf *)
Fixpoint fsub (id : nat) (l' : leaf) (t : tree) : tree :=
  match t with Leaf m => if lid m =? id then Leaf l' else t | Node b a c => Node b (fsub id l' a) (fsub id l' c) end.
Lemma fsub_none id l' t : ~ In id (map lid (leaves t)) -> fsub id l' t = t.
Proof.
  induction t as [m|b a IHa c IHc]; cbn; intros N; [rewrite (proj2 (Nat.eqb_neq (lid m) id)); auto|]. rewrite map_app, in_app_iff in N. now rewrite IHa, IHc by tauto.
Qed.
Lemma fsub_insert l l' t : lid l' = lid l -> lbb l' = lbb l -> ~ In (lid l) (map lid (leaves t)) -> fsub (lid l) l' (subtree_insert t l) = subtree_insert t l'.
Proof.
  intros E1 E2. induction t as [m|b a IHa c IHc]; intros N.
  - cbn [subtree_insert]. unfold new_node. cbn [fsub tbb]. rewrite Nat.eqb_refl, E2. f_equal. now apply (fsub_none _ l') in N.
  - cbn [subtree_insert leaves] in *. rewrite map_app, in_app_iff in N. rewrite E2. destruct (go_b a c (lbb l)); cbn [fsub].
    + rewrite IHc by tauto. now rewrite (fsub_none _ _ a) by tauto.
    + rewrite IHa by tauto. now rewrite (fsub_none _ _ c) by tauto.
Qed.
Lemma fsub_plug id l' : forall c (u u' : atree), ~ In id (lids (cleaves c)) -> fsub id l' (erase u) = erase u' -> fsub id l' (erase (plug c u)) = erase (plug c u').
Proof.
  induction c as [|f c IH]; intros u u' N E; cbn [plug]; [exact E|]. cbn [cleaves flat_map] in N. fold (cleaves c) in N. unfold lids in N. rewrite map_app, in_app_iff in N.
  apply IH; [unfold lids; tauto|]. unfold node_of. destruct (f_left f); cbn [erase fsub]; rewrite E, (fsub_none _ _ (erase (f_s f))) by (rewrite erase_ids; unfold lids; tauto); reflexivity.
Qed.
Lemma restamp (t : option atree) c x l l' : Some (erase (plug c (ALeaf x l))) = root_insert (option_map erase t) l -> lid l' = lid l -> lbb l' = lbb l ->
  ~ In (lid l) (lids (cleaves c)) -> ~ In (lid l) (lids (oaleaves t)) -> Some (erase (plug c (ALeaf x l'))) = root_insert (option_map erase t) l'.
Proof.
  intros E E1 E2 N1 N2. assert (S : erase (plug c (ALeaf x l')) = fsub (lid l) l' (erase (plug c (ALeaf x l)))).
  { symmetry. apply fsub_plug; [exact N1|]. cbn. now rewrite Nat.eqb_refl. }
  rewrite S. unfold root_insert in *. injection E as ->. f_equal. destruct t as [t|]; cbn [option_map].
  - apply fsub_insert; auto. now rewrite erase_ids.
  - cbn. now rewrite Nat.eqb_refl.
Qed.

(** ** marking, with addresses *)
Inductive aev := AIns (x y i j : nat) | ARep (i j : nat).
Definition eve (e : aev) : event := match e with AIns _ _ i j => Ins i j | ARep i j => Rep i j end.
Notation calls := (list (nat * nat)).
Definition arun1 (acc : pheap * calls) (e : aev) : pheap * calls :=
  match e with AIns x y _ _ => (h_pair_insert (fst acc) x y, snd acc) | ARep i j => (fst acc, snd acc ++ [(i, j)]) end.
Definition arun (acc : pheap * calls) (es : list aev) : pheap * calls := fold_left arun1 es acc.
Lemma arun_app acc a b : arun acc (a ++ b) = arun (arun acc a) b.
Proof. apply fold_left_app. Qed.
Fixpoint amlq (t : atree) (x : nat) (l : leaf) (lf : bool) : list aev :=
  if bb_intersects (lbb l) (abb t) then
    match t with
    | ALeaf s m => if lf then [AIns x s (lid l) (lid m)] else (if (lstamp m <? lstamp l)%nat then [AIns s x (lid m) (lid l)] else []) ++ [ARep (lid l) (lid m)]
    | ANode _ _ a c => amlq a x l lf ++ amlq c x l lf
    end
  else [].
Lemma amlq_erase t x l lf : map eve (amlq t x l lf) = mark_leaf_query (erase t) l lf.
Proof.
  induction t as [s m|y b a IHa c IHc]; cbn [amlq erase mark_leaf_query]; unfold abb; cbn [erase tbb].
  - destruct (bb_intersects _ _); [|reflexivity]. destruct lf; [reflexivity|]. destruct (_ <? _)%nat; reflexivity.
  - destruct (bb_intersects _ _); [|reflexivity]. now rewrite map_app, IHa, IHc.
Qed.
Lemma mlq_in : forall (t : atree) fuel (h : nheap) x l lf f acc, length (aaddrs t) <= fuel -> tree_in h t -> leaf_at h x l -> lf = true \/ f = true ->
  h_mlq fuel h (root t) x lf f acc = Some (arun acc (amlq t x l lf)).
Proof.
  induction t as [s m|y b a IHa c IHc]; intros fuel h x l lf f acc Lf Ht Hl Hf; (destruct fuel as [|fuel]; [cbn in Lf; lia|]); cbn [h_mlq root amlq].
  - destruct Ht as (O1 & O2 & O3). destruct Hl as (L1 & L2 & L3). rewrite O1, O2, O3, L1, L2, L3. unfold abb. cbn [erase tbb].
    destruct (bb_intersects _ _); [|reflexivity]. destruct lf; [reflexivity|]. destruct Hf as [Hf|Hf]; [discriminate|]. subst f. destruct (_ <? _)%nat; reflexivity.
  - cbn [tree_in] in Ht. destruct Ht as (H1 & H2 & H3 & H4 & H5 & H6 & H7 & H8). destruct Hl as (L1 & L2 & L3). rewrite H1, H2, H3, H4, L2. unfold abb. cbn [erase tbb].
    destruct (bb_intersects _ _); [|reflexivity]. cbn [aaddrs length] in Lf. rewrite app_length in Lf.
    rewrite (IHa fuel h x l lf f acc) by (auto; try lia; now split). rewrite (IHc fuel h x l lf f _) by (auto; try lia; now split). now rewrite arun_app.
Qed.
Definition cevents (c : list frame) (x : nat) (l : leaf) : list aev := flat_map (fun f => amlq (f_s f) x l (f_left f)) c.
Lemma cevents_erase c x l : map eve (cevents c x l) = flat_map (fun sb => mark_leaf_query (fst sb) l (snd sb)) (fctx c).
Proof. induction c as [|f c IH]; cbn; [reflexivity|]. rewrite map_app, amlq_erase. fold (cevents c x l). now rewrite IH. Qed.

Lemma up_in (h : nheap) x l : leaf_at h x l -> forall c (t : atree) fuel acc, n_par (nd h (root t)) = cpar c -> ctx_in h (root t) c -> NoDup (aaddrs t ++ caddrs c) -> inside h (caddrs c) -> length c < fuel ->
  h_up fuel h (root t) x true acc = Some (arun acc (cevents c x l)).
Proof.
  intros Hl. induction c as [|f c IH]; intros t fuel acc Hp Hc Nd Ins Lf; (destruct fuel as [|fuel]; [lia|]); cbn [h_up]; rewrite Hp; cbn [cpar]; [reflexivity|].
  cbn [ctx_in] in Hc. destruct Hc as (H1 & H2 & H3 & H4 & H5 & H6 & H7 & H8). cbn [caddrs flat_map app] in *. fold (caddrs c) in *.
  assert (Nr : root t <> root (f_s f)).
  { intros E. apply nodup_app_iff in Nd as (_ & _ & D). apply (D (root t) (root_in t)). right. apply in_or_app. left. rewrite E. apply root_in. }
  assert (Ls : length (aaddrs (f_s f)) <= nfresh h).
  { apply inside_len; [|intros y Hy; apply Ins; right; apply in_or_app; auto]. apply nodup_app_iff in Nd as (_ & Nd & _). apply NoDup_cons_iff in Nd as (_ & Nd). now apply nodup_app_iff in Nd. }
  assert (Nd' : NoDup (aaddrs (node_of f t) ++ caddrs c)).
  { eapply Permutation_NoDup; [|exact Nd]. symmetry. change (f_x f :: aaddrs (f_s f) ++ caddrs c) with ((f_x f :: aaddrs (f_s f)) ++ caddrs c). rewrite app_assoc. apply Permutation_app_tail.
    unfold node_of. destruct (f_left f); cbn [aaddrs]; [apply Permutation_cons_app, Permutation_refl|]. apply Permutation_cons_app. apply Permutation_app_comm. }
  assert (Go : forall acc, h_up fuel h (f_x f) x true acc = Some (arun acc (cevents c x l))).
  { intros acc'. rewrite <- (root_node f t). apply IH; auto; rewrite ?root_node; auto; [|cbn in Lf; lia]. intros y Hy. apply Ins. right. apply in_or_app. auto. }
  cbn [cevents flat_map]. fold (cevents c x l). rewrite arun_app, H3, H4. destruct (f_left f).
  - rewrite eqo_refl. rewrite (mlq_in (f_s f) (nfresh h) h x l true true acc) by auto. apply Go.
  - rewrite eqo_ne by congruence. rewrite (mlq_in (f_s f) (nfresh h) h x l false true acc) by auto. apply Go.
Qed.

(** ** the pairs, by object *)
(** [I]: the leaves in use, address and object *)
Definition prel1 (I : list (nat * nat)) (p : apair) (q : nat * nat) : Prop := In (fst (snd p), fst q) I /\ In (snd (snd p), snd q) I.
Definition prel (I : list (nat * nat)) : list apair -> list (nat * nat) -> Prop := Forall2 (prel1 I).
Definition bij (I : list (nat * nat)) : Prop := NoDup (map fst I) /\ NoDup (map snd I).
Lemma nodup_fst_inj {A C} (I : list (A * C)) x i j : NoDup (map fst I) -> In (x, i) I -> In (x, j) I -> i = j.
Proof.
  induction I as [|[y k] I IH]; cbn; [tauto|]. intros N. apply NoDup_cons_iff in N as (N1 & N2). intros [E|H] [E'|H']; try congruence; [| |auto].
  - injection E as -> ->. exfalso. apply N1. apply in_map_iff. exists (x, j). auto.
  - injection E' as -> ->. exfalso. apply N1. apply in_map_iff. exists (x, i). auto.
Qed.
Lemma nodup_snd_inj {A C} (I : list (A * C)) x y i : NoDup (map snd I) -> In (x, i) I -> In (y, i) I -> x = y.
Proof.
  induction I as [|[z k] I IH]; cbn; [tauto|]. intros N. apply NoDup_cons_iff in N as (N1 & N2). intros [E|H] [E'|H']; try congruence; [| |auto].
  - injection E as -> ->. exfalso. apply N1. apply in_map_iff. exists (y, i). auto.
  - injection E' as -> ->. exfalso. apply N1. apply in_map_iff. exists (x, i). auto.
Qed.
Lemma bij_eqb I x i y j : bij I -> In (x, i) I -> In (y, j) I -> (x =? y) = (i =? j).
Proof.
  intros (B1 & B2) H1 H2. destruct (Nat.eqb_spec x y) as [->|N]; symmetry; [apply Nat.eqb_eq; now apply (nodup_fst_inj I y)|].
  apply Nat.eqb_neq. intros ->. apply N. now apply (nodup_snd_inj I x y j).
Qed.
Lemma prel_touch I p q x i : bij I -> In (x, i) I -> prel1 I p q -> touch x p = touches i q.
Proof. intros B H (H1 & H2). unfold touch, touches. now rewrite (bij_eqb I _ _ x i B H1 H), (bij_eqb I _ _ x i B H2 H). Qed.
Lemma forall2_filter {A C} (R : A -> C -> Prop) f g l1 l2 : Forall2 R l1 l2 -> (forall a c, R a c -> f a = g c) -> Forall2 R (filter f l1) (filter g l2).
Proof. intros F E. induction F as [|a c l1 l2 H F IH]; cbn; [constructor|]. rewrite <- (E a c H). destruct (f a); [constructor|]; auto. Qed.
Lemma prel_mono I I' pl ps : incl I I' -> prel I pl ps -> prel I' pl ps.
Proof. intros H F. induction F as [|a c l1 l2 (H1 & H2) F IH]; constructor; auto. split; auto. Qed.

(** clearing the pairs of one leaf; the others keep to the other leaves *)
Lemma prel_clear I I' pl ps x i : bij I -> In (x, i) I -> (forall y j, In (y, j) I -> y <> x -> In (y, j) I') -> prel I pl ps ->
  prel I' (filter (fun e => negb (touch x e)) pl) (pairs_clear ps i).
Proof.
  intros Bj H Hi F. unfold pairs_clear. induction F as [|p q l1 l2 P F IH]; cbn [filter]; [constructor|].
  rewrite <- (prel_touch I p q x i Bj H P). destruct (touch x p) eqn:E; cbn [negb]; [exact IH|]. constructor; [|exact IH].
  unfold touch in E. apply orb_false_iff in E as (E1 & E2). apply Nat.eqb_neq in E1, E2. destruct P as (P1 & P2). split; auto.
Qed.

Definition agood (I : list (nat * nat)) (e : aev) : Prop := match e with AIns x y i j => In (x, i) I /\ In (y, j) I /\ x <> y | ARep _ _ => True end.
Definition idl (L : list (nat * leaf)) : list (nat * nat) := map (fun p => (fst p, lid (snd p))) L.
Lemma idl_in L x l : In (x, l) L -> In (x, lid l) (idl L).
Proof. intros H. unfold idl. apply in_map_iff. exists (x, l). auto. Qed.
Lemma idl_inv L x i : In (x, i) (idl L) -> exists l, In (x, l) L /\ lid l = i.
Proof. unfold idl. intros H. apply in_map_iff in H as ([y l] & E & H). cbn in E. injection E as <- <-. eauto. Qed.
Lemma amlq_good I (t : atree) x l lf : In (x, lid l) I -> incl (idl (aleaves t)) I -> ~ In x (aaddrs t) -> Forall (agood I) (amlq t x l lf).
Proof.
  intros Hx. induction t as [s m|y b a IHa c IHc]; cbn [amlq aleaves aaddrs]; intros Hi N.
  - destruct (bb_intersects _ _); [|constructor]. assert (Hs : In (s, lid m) I) by (apply Hi; now left). cbn in N.
    destruct lf; [repeat constructor; cbn; auto; tauto|]. destruct (_ <? _)%nat; repeat constructor; cbn; auto; tauto.
  - destruct (bb_intersects _ _); [|constructor]. unfold idl in *. rewrite map_app in Hi. cbn in N. rewrite in_app_iff in N. apply Forall_app. split; [apply IHa|apply IHc]; try tauto; intros z Hz; apply Hi; apply in_or_app; auto.
Qed.
Lemma arun_ok I es : forall p rep pl q ps, prepr p pl q -> prel I pl ps -> Forall (agood I) es ->
  exists pl' q', prepr (fst (arun (p, rep) es)) pl' q' /\ prel I pl' (run_events ps (map eve es)) /\ snd (arun (p, rep) es) = rep ++ reports (map eve es) /\ pgrow p (fst (arun (p, rep) es)) pl pl' q q'.
Proof.
  induction es as [|e es IH]; intros p rep pl q ps R F G.
  - exists pl, q. cbn. rewrite app_nil_r. sp; auto. intros H. auto.
  - inversion G as [|? ? G1 G2]; subst. destruct e as [x y i j|i j].
    + destruct G1 as (X & Y & N). destruct (insert_repr p pl q x y R N) as (z & q1 & R1 & G1).
      destruct (IH (h_pair_insert p x y) rep ((z, (x, y)) :: pl) q1 ((i, j) :: ps) R1) as (pl' & q' & A & C & D); auto.
      { constructor; [split; cbn; auto|exact F]. }
      exists pl', q'. sp; auto; [apply D|]. eapply pgrow_trans; [exact G1|apply D].
    + destruct (IH p (rep ++ [(i, j)]) pl q ps R F G2) as (pl' & q' & A & C & D & G'). exists pl', q'. sp; auto.
      unfold arun in *. cbn [fold_left arun1 fst snd map eve reports flat_map] in *. rewrite D, <- app_assoc. reflexivity.
Qed.

(** ** the walk over the cached pairs *)
Lemma walk_in I (h : nheap) p pl q x i : prepr p pl q -> (forall y j, In (y, j) I -> n_obj (nd h y) = Some j) -> bij I -> In (x, i) I ->
  forall L Ls fuel cur rep, (forall e, In e L -> In e pl /\ touch x e = true) -> prel I L Ls -> chain (fun a => th_next (thread (pth p) a x)) cur (map fst L) -> length L <= fuel ->
  h_walk fuel h p x true cur rep = Some (rep ++ flat_map (fun q => if snd q =? i then [(fst q, i)] else []) Ls).
Proof.
  intros R Ob Bj Hx. induction L as [|[a [u v]] L IH]; intros Ls fuel cur rep HL F Ch Lf; inversion F as [|? [qu qv] ? Ls' P F']; subst; cbn [map fst] in Ch.
  - cbn in Ch. subst cur. cbn [flat_map]. rewrite app_nil_r. destruct fuel; reflexivity.
  - destruct Ch as (-> & Ch). destruct fuel as [|fuel]; [cbn in Lf; lia|]. cbn in Lf. destruct (HL (a, (u, v)) (or_introl eq_refl)) as (Hin & Ht).
    destruct (pr_ends _ _ _ _ R a u v Hin) as (Ea & Eb & Nuv). cbn [h_walk]. rewrite Eb. destruct P as (P1 & P2). cbn [fst snd] in P1, P2.
    rewrite (bij_eqb I v qv x i Bj P2 Hx). cbn beta in Ch. unfold thread in Ch at 1 || idtac.
    assert (Et : thread (pth p) a x = if qv =? i then t_tb (th_arb (pth p) a) else t_ta (th_arb (pth p) a)).
    { rewrite <- (bij_eqb I v qv x i Bj P2 Hx). unfold thread. rewrite Ea. unfold touch in Ht. cbn in Ht. destruct (Nat.eqb_spec v x) as [->|Nv].
      - now rewrite (proj2 (Nat.eqb_neq u x) Nuv).
      - destruct (u =? x); [reflexivity|discriminate]. }
    assert (HL' : forall e, In e L -> In e pl /\ touch x e = true) by (intros e He; apply HL; now right).
    assert (Ch' : chain (fun a => th_next (thread (pth p) a x)) (th_next (thread (pth p) a x)) (map fst L)) by exact Ch.
    rewrite Et in Ch'. cbn [flat_map fst snd].
    destruct (qv =? i) eqn:Ev.
    + rewrite Ea, (Ob u qu P1), (Ob x i Hx). rewrite (IH Ls' fuel _ _ HL' F' Ch') by lia. now rewrite <- app_assoc.
    + now rewrite (IH Ls' fuel _ _ HL' F' Ch') by lia.
Qed.

Lemma filter_map_fst x pl : map fst (filter (touch x) pl) = lst pl x.
Proof. reflexivity. Qed.
Lemma reports_flat (Ls : list (nat * nat)) i : reports (flat_map (fun q => if snd q =? i then [Rep (fst q) i] else []) Ls) = flat_map (fun q => if snd q =? i then [(fst q, i)] else []) Ls.
Proof. induction Ls as [|q Ls IH]; cbn; [reflexivity|]. rewrite reports_app, IH. destruct (snd q =? i); reflexivity. Qed.
Lemma run_reps (Ls : list (nat * nat)) i ps : run_events ps (flat_map (fun q => if snd q =? i then [Rep (fst q) i] else []) Ls) = ps.
Proof.
  rewrite run_events_eq. assert (E : inss (flat_map (fun q => if snd q =? i then [Rep (fst q) i] else []) Ls) = []).
  { induction Ls as [|q Ls IH]; cbn; [reflexivity|]. rewrite inss_app, IH. destruct (snd q =? i); reflexivity. }
  now rewrite E.
Qed.

(** ** MarkLeaf *)
Lemma mark_leaf_in I (h : nheap) c x l (ts : option atree) stmp p rep pl q ps :
  tree_in h (plug c (ALeaf x l)) -> n_par (nd h (root (plug c (ALeaf x l)))) = None -> match ts with Some s => tree_in h s | None => True end ->
  NoDup (aaddrs (plug c (ALeaf x l)) ++ oaddrs ts) -> inside h (aaddrs (plug c (ALeaf x l)) ++ oaddrs ts) ->
  bij I -> incl (idl (aleaves (plug c (ALeaf x l)))) I -> incl (idl (oaleaves ts)) I -> (forall y j, In (y, j) I -> n_obj (nd h y) = Some j) ->
  NoDup (lids (aleaves (plug c (ALeaf x l)))) ->
  prepr p pl q -> prel I pl ps ->
  let es := mark_leaf (erase (plug c (ALeaf x l))) (option_map erase ts) stmp ps l in
  exists acc pl' q', h_mark_leaf h (option_map root ts) true stmp x (p, rep) = Some acc /\ prepr (fst acc) pl' q' /\ prel I pl' (run_events ps es) /\ snd acc = rep ++ reports es /\ pgrow p (fst acc) pl pl' q q'.
Proof.
  intros Ht Hp Hs Nd Ins Bj Hi1 Hi2 Ob Nid R F es. destruct (proj1 (plug_in h c (ALeaf x l)) (conj Ht Hp)) as (Hl & Hpx & Hc). cbn [root tree_in] in *.
  assert (Pa : Permutation (aaddrs (plug c (ALeaf x l))) (x :: caddrs c)) by apply (plug_addrs c (ALeaf x l)).
  assert (Pl : Permutation (aleaves (plug c (ALeaf x l))) ((x, l) :: cleaves c)) by apply (plug_leaves c (ALeaf x l)).
  assert (Hx : In (x, lid l) I) by (apply Hi1; apply idl_in; apply (Permutation_in _ (Permutation_sym Pl)); now left).
  assert (Nl : ~ In (lid l) (lids (cleaves c))).
  { unfold lids in *. pose proof (Permutation_NoDup (Permutation_map _ Pl) Nid) as N. cbn in N. now apply NoDup_cons_iff in N. }
  pose proof Nd as Nd0. apply nodup_app_iff in Nd0 as (N1 & N2 & N3). pose proof (Permutation_NoDup Pa N1) as Nxc. 
  unfold h_mark_leaf, es, mark_leaf. rewrite (proj2 (proj2 Hl)). destruct (lstamp l =? stmp) eqn:Es.
  - rewrite (path_plug c x l Nl).
    set (e1 := match ts with Some s => amlq s x l false | None => [] end).
    assert (E1 : match option_map root ts with Some s => h_mlq (nfresh h) h s x false true (p, rep) | None => Some (p, rep) end = Some (arun (p, rep) e1)).
    { destruct ts as [s|]; cbn [option_map]; [|reflexivity]. apply mlq_in; auto. apply inside_len; [exact N2|]. intros y Hy. apply Ins. apply in_or_app. auto. }
    rewrite E1. rewrite (up_in h x l Hl c (ALeaf x l)); auto.
    2:{ intros y Hy. apply Ins. apply in_or_app. left. apply (Permutation_in _ (Permutation_sym Pa)). now right. }
    2:{ pose proof (ctx_len c). assert (K : length (x :: caddrs c) <= nfresh h - 1).
        { apply (Nat.le_trans _ (length (seq 1 (nfresh h - 1)))); [|now rewrite seq_length]. apply NoDup_incl_length; [exact Nxc|]. intros y Hy. apply in_seq.
          apply (Permutation_in _ (Permutation_sym Pa)) in Hy. assert (K : 0 < y < nfresh h) by (apply Ins; apply in_or_app; now left). lia. }
        cbn in K. assert (Px : 0 < x < nfresh h) by (apply Ins; apply in_or_app; left; apply (Permutation_in _ (Permutation_sym Pa)); now left). lia. }
    rewrite <- arun_app.
    assert (Ee : map eve (e1 ++ cevents c x l) = match option_map erase ts with Some s => mark_leaf_query s l false | None => [] end ++ flat_map (fun sb => mark_leaf_query (fst sb) l (snd sb)) (fctx c)).
    { rewrite map_app, cevents_erase. f_equal. unfold e1. destruct ts; cbn; [apply amlq_erase|reflexivity]. }
    rewrite <- Ee.
    assert (G : Forall (agood I) (e1 ++ cevents c x l)).
    { apply Forall_app. split.
      - unfold e1. destruct ts as [s|]; [|constructor]. apply amlq_good; auto. intros H. apply (N3 x); [|exact H]. apply (Permutation_in _ (Permutation_sym Pa)). now left.
      - apply NoDup_cons_iff in Nxc as (Nx & _). assert (Hic : incl (idl (cleaves c)) I).
        { intros [y j] H. apply idl_inv in H as (m & H & <-). apply Hi1. apply idl_in. apply (Permutation_in _ (Permutation_sym Pl)). now right. }
        clear - Hx Nx Hic. induction c as [|f c IH]; cbn [cevents flat_map]; [constructor|]. fold (cevents c x l). cbn [caddrs flat_map app] in Nx. fold (caddrs c) in Nx. cbn in Nx. rewrite in_app_iff in Nx.
        cbn [cleaves flat_map] in Hic. fold (cleaves c) in Hic. unfold idl in Hic. rewrite map_app in Hic. apply Forall_app. split.
        + apply amlq_good; auto; try tauto. intros z Hz. apply Hic. apply in_or_app. auto.
        + apply IH; [tauto|]. intros z Hz. apply Hic. apply in_or_app. auto. }
    destruct (arun_ok I _ p rep pl q ps R F G) as (pl' & q' & A & C & D & G'). eauto 10.
  - cbn [fst snd]. destruct (pr_list _ _ _ _ R x Logic.I) as (Lx & Dx). rewrite Lx.
    rewrite (walk_in I h p pl q x (lid l) R Ob Bj Hx (filter (touch x) pl) (filter (touches (lid l)) ps)).
    + exists (p, rep ++ flat_map (fun q => if snd q =? lid l then [(fst q, lid l)] else []) (filter (touches (lid l)) ps)), pl, q. cbn [fst snd]. rewrite run_reps, reports_flat. sp; auto. intros H. auto.
    + intros e He. now apply filter_In in He.
    + apply forall2_filter; [exact F|]. intros a e H. now apply (prel_touch I).
    + rewrite filter_map_fst. now apply (dll_chain _ x _ None).
    + rewrite <- (map_length fst). rewrite filter_map_fst. now apply (lst_bound p pl q).
Qed.

(** ** MarkSubtree *)
Lemma mark_subtree_in I (h : nheap) (ts : option atree) stmp (D : tree) : match ts with Some s => tree_in h s | None => True end ->
  bij I -> incl (idl (oaleaves ts)) I -> (forall y j, In (y, j) I -> n_obj (nd h y) = Some j) ->
  forall (t : atree) c fuel p rep pl q ps, erase (plug c t) = D ->
  tree_in h (plug c t) -> n_par (nd h (root (plug c t))) = None ->
  NoDup (aaddrs (plug c t) ++ oaddrs ts) -> inside h (aaddrs (plug c t) ++ oaddrs ts) -> incl (idl (aleaves (plug c t))) I -> NoDup (lids (aleaves (plug c t))) ->
  length (aaddrs t) <= fuel -> prepr p pl q -> prel I pl ps ->
  let '(ps', rep') := fold_left (mark_step D (option_map erase ts) stmp) (leaves (erase t)) (ps, rep) in
  exists acc pl' q', h_mark_subtree fuel h (option_map root ts) true stmp (root t) (p, rep) = Some acc /\ prepr (fst acc) pl' q' /\ prel I pl' ps' /\ snd acc = rep' /\ pgrow p (fst acc) pl pl' q q'.
Proof.
  intros Hs Bj Hi2 Ob. induction t as [x l|y b a IHa k IHk]; intros c fuel p rep pl q ps ED Ht Hp Nd Ins Hi1 Nid Lf R F; (destruct fuel as [|fuel]; [cbn in Lf; lia|]).
  - cbn [erase leaves fold_left mark_step fst snd root h_mark_subtree].
    assert (O : n_obj (nd h x) = Some (lid l)).
    { destruct (proj1 (plug_in h c (ALeaf x l)) (conj Ht Hp)) as ((O & _) & _). exact O. }
    rewrite O. rewrite <- ED. now apply mark_leaf_in with (q := q) (pl := pl).
  - cbn [erase leaves root h_mark_subtree]. rewrite fold_left_app.
    destruct (proj1 (plug_in h c _) (conj Ht Hp)) as (Hn & _). cbn [tree_in] in Hn. destruct Hn as (O1 & _ & O3 & O4 & _). rewrite O1, O3, O4.
    cbn [aaddrs length] in Lf. rewrite app_length in Lf.
    specialize (IHa (mkF y b true k :: c) fuel p rep pl q ps ED Ht Hp Nd Ins Hi1 Nid ltac:(lia) R F).
    destruct (fold_left _ (leaves (erase a)) (ps, rep)) as (ps1, rep1). destruct IHa as ([p1 r1] & pl1 & q1 & A1 & A2 & A3 & A4 & A5). cbn [fst snd] in *. subst r1. rewrite A1.
    specialize (IHk (mkF y b false a :: c) fuel p1 rep1 pl1 q1 ps1 ED Ht Hp Nd Ins Hi1 Nid ltac:(lia) A2 A3).
    destruct (fold_left _ (leaves (erase k)) (ps1, rep1)) as (ps2, rep2). destruct IHk as (acc & pl2 & q2 & B1 & B2 & B3 & B4 & B5). exists acc, pl2, q2. sp; auto. eapply pgrow_trans; eauto.
Qed.

(** ** queries *)
Lemma query_in : forall (t : atree) fuel (h : nheap) q, length (aaddrs t) <= fuel -> tree_in h t -> h_subtree_query fuel h (root t) q = Some (subtree_query (erase t) q).
Proof.
  induction t as [s m|y b a IHa c IHc]; intros fuel h q Lf Ht; (destruct fuel as [|fuel]; [cbn in Lf; lia|]); cbn [h_subtree_query root erase subtree_query tbb].
  - destruct Ht as (O1 & O2 & O3). rewrite O1, O2. destruct (bb_intersects _ _); reflexivity.
  - cbn [tree_in] in Ht. destruct Ht as (H1 & H2 & H3 & H4 & H5 & H6 & H7 & H8). rewrite H1, H2, H3, H4. destruct (bb_intersects _ _); [|reflexivity].
    cbn [aaddrs length] in Lf. rewrite app_length in Lf. rewrite IHa by (auto; lia). rewrite IHc by (auto; lia). reflexivity.
Qed.
Lemma seg_query_in {S : Type} (f : S -> nat -> S * T) a b : forall (t : atree) fuel (h : nheap) st te, length (aaddrs t) <= fuel -> tree_in h t ->
  h_seg_query fuel h f (root t) a b st te = Some (subtree_segment_query f (erase t) a b st te).
Proof.
  induction t as [s m|y bx ca IHa cb IHc]; intros fuel h st te Lf Ht; (destruct fuel as [|fuel]; [cbn in Lf; lia|]); cbn [h_seg_query root erase subtree_segment_query].
  - destruct Ht as (O1 & O2 & O3). now rewrite O1.
  - cbn [tree_in] in Ht. destruct Ht as (H1 & H2 & H3 & H4 & H5 & H6 & H7 & H8). rewrite H1, H3, H4. cbn [aaddrs length] in Lf. rewrite app_length in Lf.
    rewrite (tree_bb h ca H7), (tree_bb h cb H8). unfold abb.
    assert (Ea : forall st te, h_seg_query fuel h f (root ca) a b st te = Some (subtree_segment_query f (erase ca) a b st te)) by (intros; apply IHa; auto; lia).
    assert (Ec : forall st te, h_seg_query fuel h f (root cb) a b st te = Some (subtree_segment_query f (erase cb) a b st te)) by (intros; apply IHc; auto; lia).
    set (tA := bb_segment_query (tbb (erase ca)) a b). set (tB := bb_segment_query (tbb (erase cb)) a b).
    destruct (nltb tA tB).
    + destruct (nltb tA te).
      * rewrite Ea. destruct (subtree_segment_query f (erase ca) a b st te) as (s1, r1). destruct (nltb tB _); [|reflexivity]. rewrite Ec. destruct (subtree_segment_query f (erase cb) a b s1 _); reflexivity.
      * destruct (nltb tB te); [|reflexivity]. rewrite Ec. destruct (subtree_segment_query f (erase cb) a b st _); reflexivity.
    + destruct (nltb tB te).
      * rewrite Ec. destruct (subtree_segment_query f (erase cb) a b st te) as (s1, r1). destruct (nltb tA _); [|reflexivity]. rewrite Ea. destruct (subtree_segment_query f (erase ca) a b s1 _); reflexivity.
      * destruct (nltb tA te); [|reflexivity]. rewrite Ea. destruct (subtree_segment_query f (erase ca) a b st _); reflexivity.
Qed.
End M.
