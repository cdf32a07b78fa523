(** The nodes of Model/BBTreeHeap.v: which tree the pointers represent. *)
From Coq Require Import ZArith Arith Bool List Lia Permutation.
From Verif Require Import Num.
From Verif.Model Require Import Vector BB BBTree Threads BBTreeHeap.
From Verif.Proofs Require Import Util ThreadsPf BBHeapPairs BBTreeInv.
Import ListNotations.
Local Open Scope nat_scope.

Ltac sp := repeat match goal with |- _ /\ _ => split end.
Lemma put2_eq {A} (f : bool -> A) d v : put2 f d v d = v.
Proof. unfold put2. now rewrite Bool.eqb_reflx. Qed.
Lemma put2_ne {A} (f : bool -> A) d d' v : d' <> d -> put2 f d v d' = f d'.
Proof. unfold put2. intros N. now destruct (Bool.eqb_spec d' d). Qed.
Lemma put2_neg {A} (f : bool -> A) d v : put2 f d v (negb d) = f (negb d).
Proof. apply put2_ne. now destruct d. Qed.
Lemma eqo_true a b : eqo a b = true <-> a = b.
Proof. destruct a, b; cbn; try (split; congruence). rewrite Nat.eqb_eq. split; congruence. Qed.
Lemma eqo_refl a : eqo a a = true.
Proof. now apply eqo_true. Qed.
Lemma eqo_ne a b : a <> b -> eqo a b = false.
Proof. intros N. destruct (eqo a b) eqn:E; [|reflexivity]. now apply eqo_true in E. Qed.

Section N.
Context {T : Type} {NT : Num T}.
Notation B := (BB T).
Notation tree := (tree T).
Notation leaf := (leaf T).
Notation nheap := (nheap T).

(** a tree whose nodes carry their addresses *)
Inductive atree := ALeaf (x : nat) (l : leaf) | ANode (x : nat) (b : B) (a c : atree).
Definition root (t : atree) : nat := match t with ALeaf x _ => x | ANode x _ _ _ => x end.
Fixpoint erase (t : atree) : tree := match t with ALeaf _ l => Leaf l | ANode _ b a c => Node b (erase a) (erase c) end.
Fixpoint aaddrs (t : atree) : list nat := match t with ALeaf x _ => [x] | ANode x _ a c => x :: aaddrs a ++ aaddrs c end.
Fixpoint aleaves (t : atree) : list (nat * leaf) := match t with ALeaf x l => [(x, l)] | ANode _ _ a c => aleaves a ++ aleaves c end.
Definition abb (t : atree) : B := tbb (erase t).

Definition leaf_at (h : nheap) (x : nat) (l : leaf) : Prop := n_obj (nd h x) = Some (lid l) /\ n_bb (nd h x) = lbb l /\ n_stamp (nd h x) = lstamp l.
(** the pointers below the root are those of [t] *)
Fixpoint tree_in (h : nheap) (t : atree) : Prop :=
  match t with
  | ALeaf x l => leaf_at h x l
  | ANode x b a c => n_obj (nd h x) = None /\ n_bb (nd h x) = b /\ n_a (nd h x) = Some (root a) /\ n_b (nd h x) = Some (root c) /\
      n_par (nd h (root a)) = Some x /\ n_par (nd h (root c)) = Some x /\ tree_in h a /\ tree_in h c
  end.
Lemma root_in t : In (root t) (aaddrs t).
Proof. destruct t; cbn; auto. Qed.
Lemma tree_bb h t : tree_in h t -> n_bb (nd h (root t)) = abb t.
Proof. destruct t; cbn; [intros (_ & A & _); exact A|tauto]. Qed.
Lemma aleaves_addr t x l : In (x, l) (aleaves t) -> In x (aaddrs t).
Proof.
  induction t as [y m|y b a IHa c IHc]; cbn; [intros [E|[]]; injection E; auto|]. intros H. right. apply in_app_iff in H. apply in_or_app. tauto.
Qed.
Lemma erase_leaves t : leaves (erase t) = map snd (aleaves t).
Proof. induction t as [y m|y b a IHa c IHc]; cbn; [reflexivity|]. now rewrite IHa, IHc, map_app. Qed.

Lemma tree_in_ext h h' : forall t, NoDup (aaddrs t) ->
  (forall y, In y (aaddrs t) -> n_obj (nd h' y) = n_obj (nd h y) /\ n_bb (nd h' y) = n_bb (nd h y) /\ n_a (nd h' y) = n_a (nd h y) /\ n_b (nd h' y) = n_b (nd h y) /\ n_stamp (nd h' y) = n_stamp (nd h y)) ->
  (forall y, In y (aaddrs t) -> y <> root t -> n_par (nd h' y) = n_par (nd h y)) -> tree_in h t -> tree_in h' t.
Proof.
  induction t as [x l|x b a IHa c IHc]; intros Nd E P.
  - cbn in *. unfold leaf_at. destruct (E x ltac:(auto)) as (E1 & E2 & _ & _ & E5). now rewrite E1, E2, E5.
  - cbn [tree_in aaddrs root] in *. intros (H1 & H2 & H3 & H4 & H5 & H6 & H7 & H8). apply NoDup_cons_iff in Nd as (Nx & Nd). rewrite in_app_iff in Nx.
    apply nodup_app_iff in Nd as (Na & Nc & Nac). destruct (E x ltac:(now left)) as (E1 & E2 & E3 & E4 & E5).
    assert (Ia : forall y, In y (aaddrs a) -> In y (x :: aaddrs a ++ aaddrs c) /\ y <> x) by (intros y Hy; split; [right; apply in_or_app; auto|intros ->; tauto]).
    assert (Ic : forall y, In y (aaddrs c) -> In y (x :: aaddrs a ++ aaddrs c) /\ y <> x) by (intros y Hy; split; [right; apply in_or_app; auto|intros ->; tauto]).
    rewrite E1, E2, E3, E4. destruct (Ia (root a) (root_in a)) as (A1 & A2). destruct (Ic (root c) (root_in c)) as (C1 & C2). rewrite (P _ A1 A2), (P _ C1 C2).
    sp; auto.
    + apply IHa; auto. { intros y Hy. now apply E, Ia. } intros y Hy _. destruct (Ia y Hy). now apply P.
    + apply IHc; auto. { intros y Hy. now apply E, Ic. } intros y Hy _. destruct (Ic y Hy). now apply P.
Qed.
Lemma tree_in_same h h' t : NoDup (aaddrs t) -> (forall y, In y (aaddrs t) -> nd h' y = nd h y) -> tree_in h t -> tree_in h' t.
Proof. intros Nd E. apply tree_in_ext; auto; intros y Hy; [|intros _]; rewrite (E y Hy); auto. Qed.
Lemma tree_in_set_par h t v : NoDup (aaddrs t) -> tree_in h t -> tree_in (set_par h (root t) v) t.
Proof.
  intros Nd. apply tree_in_ext; auto.
  - intros y Hy. unfold set_par, set_nd. cbn. unfold put. destruct (y =? root t) eqn:E; [|auto]. apply Nat.eqb_eq in E. subst y. cbn. auto.
  - intros y Hy Ny. unfold set_par, set_nd. cbn. now rewrite put_ne.
Qed.

(** ** free list *)
Definition pool_in (h : nheap) (d : bool) (q : list nat) : Prop := chain (fun x => n_par (nd h x)) (npool h d) q.
Definition inside (h : nheap) (l : list nat) : Prop := forall y, In y l -> 0 < y < nfresh h.
(** the step changed only nodes in [m] and new ones; what is used afterwards is [m'] *)
Record moved (d : bool) (h h' : nheap) (m m' : list nat) : Prop := mkMoved {
  mv_nd : forall y, y < nfresh h -> ~ In y m -> nd h' y = nd h y;
  mv_mine : forall y, In y m' -> In y m \/ nfresh h <= y;
  mv_fresh : nfresh h <= nfresh h';
  mv_pool : npool h' (negb d) = npool h (negb d);
  mv_len : length m' + nfresh h = length m + nfresh h' }.
(** nodes are made only when the free list is empty *)
Definition ngrow (h h' : nheap) (q q' : list nat) : Prop := (nfresh h' = nfresh h /\ length q' <= length q) \/ length q' <= POOLED_BUFFER_SIZE.
Lemma moved_trans d h h' h'' m m' m'' : moved d h h' m m' -> moved d h' h'' m' m'' -> moved d h h'' m m''.
Proof.
  intros A C. destruct A as [A1 A2 A3 A4 A5], C as [C1 C2 C3 C4 C5]. constructor.
  - intros y Hy Ny. rewrite C1; [now apply A1|lia|]. intros Hm. apply A2 in Hm as [Hm|Hm]; [contradiction|lia].
  - intros y Hy. apply C2 in Hy as [Hy|Hy]; [now apply A2|right; lia].
  - lia.
  - congruence.
  - lia.
Qed.
Lemma moved_more d h h' m m' k : moved d h h' m m' -> moved d h h' (k ++ m) (k ++ m').
Proof.
  intros [A1 A2 A3 A4 A5]. constructor; auto; [| |rewrite !app_length; lia].
  - intros y Hy Ny. apply A1; auto. intros H. apply Ny. apply in_or_app. auto.
  - intros y Hy. apply in_app_iff in Hy as [Hy|Hy]; [left; apply in_or_app; auto|]. apply A2 in Hy as [Hy|Hy]; auto. left. apply in_or_app. auto.
Qed.
Lemma moved_equiv d h h' m m' k k' : moved d h h' m m' -> incl m k -> incl k' m' -> length k = length m -> length k' = length m' -> moved d h h' k k'.
Proof.
  intros [A1 A2 A3 A4 A5] I J K L. constructor; auto; [|lia].
  intros y Hy. apply J, A2 in Hy as [Hy|Hy]; auto.
Qed.

Lemma recycle_pool h d q x : pool_in h d q -> ~ In x q -> pool_in (recycle_node h d x) d (x :: q).
Proof.
  intros C N. unfold pool_in, recycle_node. cbn. rewrite put2_eq. split; [reflexivity|]. rewrite put_eq. cbn.
  apply (chain_ext (fun x => n_par (nd h x))); [|exact C]. intros y Hy. rewrite put_ne; [reflexivity|]. intros ->. contradiction.
Qed.
Lemma grow_pool d : forall k h q, pool_in h d q -> NoDup q -> inside h q -> 0 < nfresh h ->
  let h' := grow_nodes k h d in
  exists q', pool_in h' d q' /\ NoDup q' /\ inside h' q' /\ moved d h h' q q' /\ length q' = k + length q.
Proof.
  induction k as [|k IH]; intros h q C Nd In0 Pos; cbn zeta.
  - exists q. sp; auto. constructor; auto.
  - cbn [grow_nodes alloc_node]. set (h1 := mkNH _ _ _). set (x := nfresh h).
    assert (Nx : ~ In x q) by (intros H; apply In0 in H; unfold x in H; lia).
    assert (C1 : pool_in h1 d q).
    { unfold pool_in, h1. cbn. apply (chain_ext (fun x => n_par (nd h x))); [|exact C]. intros y Hy. rewrite put_ne; [reflexivity|]. intros ->. contradiction. }
    destruct (IH (recycle_node h1 d x) (x :: q)) as (q' & D1 & D2 & D3 & D4 & D5).
    + now apply recycle_pool.
    + now constructor.
    + intros y [<-|Hy]; cbn; [unfold x; lia|]. apply In0 in Hy. lia.
    + cbn. lia.
    + exists q'. cbn in D5. sp; auto; [|lia]. destruct D4 as [M1 M2 M3 M4 M5]. cbn in M1, M2, M3, M4, M5. constructor.
      * intros y Hy Ny. rewrite M1; [|lia|intros [<-|H]; [unfold x in Hy; lia|contradiction]].
        rewrite put_ne by (unfold x; lia). apply put_ne. lia.
      * intros y Hy. apply M2 in Hy as [[<-|Hy]|Hy]; [right; unfold x; lia|auto|right; lia].
      * lia.
      * rewrite M4. apply put2_neg.
      * lia.
Qed.
Opaque POOLED_BUFFER_SIZE.
Lemma node_from_pool_ok h d q : pool_in h d q -> NoDup q -> inside h q -> 0 < nfresh h ->
  exists h' x q', node_from_pool h d = (h', x) /\ pool_in h' d q' /\ NoDup (x :: q') /\ inside h' (x :: q') /\ moved d h h' q (x :: q') /\ ngrow h h' q q'.
Proof.
  intros C Nd In0 Pos. unfold node_from_pool. destruct q as [|x q].
  - cbn in C. unfold pool_in in C. cbn in C. rewrite C.
    destruct (grow_pool d POOLED_BUFFER_SIZE h [] ltac:(exact C) Nd In0 Pos) as (q' & D1 & D2 & D3 & D4 & D5). cbn [length] in D5.
    revert D1 D2 D3 D4 D5. generalize (grow_nodes POOLED_BUFFER_SIZE h d). intros h1 D1 D2 D3 D4 D5. cbn [alloc_node].
    set (x := nfresh h1). assert (Nx : ~ In x q') by (intros H; apply D3 in H; unfold x in H; lia).
    eexists _, x, q'. split; [reflexivity|]. destruct D4 as [M1 M2 M3 M4 M5]. sp; [| | | |right; lia].
    + unfold pool_in. cbn. apply (chain_ext (fun x => n_par (nd h1 x))); [|exact D1]. intros y Hy. rewrite !put_ne by (intros ->; contradiction). reflexivity.
    + now constructor.
    + intros y [<-|Hy]; cbn; [unfold x; lia|]. apply D3 in Hy. lia.
    + constructor; cbn [nd nfresh npool set_par set_nd].
      * intros y Hy Ny. rewrite !put_ne by (unfold x; lia). now apply M1.
      * intros y [<-|Hy]; [right; unfold x; lia|]. now apply M2.
      * lia.
      * exact M4.
      * cbn [length] in *. lia.
  - destruct C as (E & C). rewrite E. eexists _, x, q. split; [reflexivity|]. apply NoDup_cons_iff in Nd as (Nx & Nd). sp; [| | | |left; cbn; lia].
    + unfold pool_in. cbn. rewrite put2_eq. exact C.
    + now constructor.
    + exact In0.
    + constructor; cbn; auto. apply put2_neg.
Qed.

(** ** SubtreeInsert *)
Lemma go_b_heap h a c lb x l : tree_in h a -> tree_in h c -> leaf_at h x l -> lb = lbb l ->
  h_go_b h (root a) (root c) x = go_b (erase a) (erase c) lb.
Proof. intros A C (_ & L & _) ->. unfold h_go_b, go_b. rewrite (tree_bb h a A), (tree_bb h c C), L. reflexivity. Qed.

Lemma insert_in : forall t fuel h d x l q,
  length (aaddrs t) <= fuel -> tree_in h t -> leaf_at h x l -> pool_in h d q -> NoDup (aaddrs t ++ x :: q) -> inside h (aaddrs t ++ x :: q) ->
  exists h' t' q', h_subtree_insert fuel h d (Some (root t)) x = Some (h', root t') /\
    erase t' = subtree_insert (erase t) l /\ tree_in h' t' /\ pool_in h' d q' /\ NoDup (aaddrs t' ++ q') /\ inside h' (aaddrs t' ++ q') /\
    moved d h h' (aaddrs t ++ x :: q) (aaddrs t' ++ q') /\ incl (x :: aaddrs t) (aaddrs t') /\
    n_par (nd h' (root t')) = match t with ALeaf _ _ => None | ANode y _ _ _ => n_par (nd h y) end /\
    Permutation (aleaves t') ((x, l) :: aleaves t) /\ ngrow h h' q q'.
Proof.
  induction t as [s m|y b a IHa c IHc]; intros fuel h d x l q Lf Ht Hl Hq Nd Ins.
  - destruct fuel as [|fuel]; [cbn in Lf; lia|]. cbn [h_subtree_insert root]. cbn [tree_in] in Ht. destruct Ht as (O1 & O2 & O3). rewrite O1.
    cbn [aaddrs app] in *. apply NoDup_cons_iff in Nd as (Ns & Nd). apply NoDup_cons_iff in Nd as (Nx & Nd). cbn in Ns.
    assert (Pos : 0 < nfresh h) by (assert (X : In s (s :: x :: q)) by (now left); apply Ins in X; lia).
    destruct (node_from_pool_ok h d q Hq Nd ltac:(intros z Hz; apply Ins; right; now right) Pos) as (h1 & n & q' & E & Q1 & Q2 & Q3 & Q4 & Q5).
    unfold h_new_node. rewrite E. destruct Q4 as [M1 M2 M3 M4 M5]. apply NoDup_cons_iff in Q2 as (Nn & Q2).
    assert (Sx : s < nfresh h /\ x < nfresh h) by (split; apply Ins; cbn; auto).
    assert (Fx : ~ In x (n :: q') /\ ~ In s (n :: q')) by (split; intros H; apply M2 in H as [H|H]; try lia; tauto).
    destruct Fx as (Fx & Fs). cbn in Fx, Fs.
    assert (Ex : nd h1 x = nd h x) by (apply M1; tauto). assert (Es : nd h1 s = nd h s) by (apply M1; tauto).
    assert (X0 : x <> n) by (intros ->; tauto). assert (X1 : s <> n) by (intros ->; tauto). assert (X2 : s <> x) by (intros ->; tauto).
    destruct Hl as (L1 & L2 & L3).
    set (h2 := node_set_b _ n s).
    assert (Vn : nd h2 n = mkHN None (bb_merge (lbb l) (lbb m)) None (Some x) (Some s) (n_stamp (nd h1 n))).
    { unfold h2, node_set_b, node_set_a, set_par, set_a, set_b, set_nd. cbn. repeat first [rewrite put_eq|rewrite put_ne by congruence]. cbn. now rewrite Ex, Es, L2, O2. }
    assert (Vx : nd h2 x = mkHN (n_obj (nd h x)) (n_bb (nd h x)) (Some n) (n_a (nd h x)) (n_b (nd h x)) (n_stamp (nd h x))).
    { unfold h2, node_set_b, node_set_a, set_par, set_a, set_b, set_nd. cbn. repeat first [rewrite put_eq|rewrite put_ne by congruence]. now rewrite Ex. }
    assert (Vs : nd h2 s = mkHN (n_obj (nd h s)) (n_bb (nd h s)) (Some n) (n_a (nd h s)) (n_b (nd h s)) (n_stamp (nd h s))).
    { unfold h2, node_set_b, node_set_a, set_par, set_a, set_b, set_nd. cbn. repeat first [rewrite put_eq|rewrite put_ne by congruence]. now rewrite Es. }
    assert (Vo : forall z, z <> n -> z <> x -> z <> s -> nd h2 z = nd h1 z).
    { intros z Z1 Z2 Z3. unfold h2, node_set_b, node_set_a, set_par, set_a, set_b, set_nd. cbn. rewrite !put_ne by congruence. reflexivity. }
    assert (Fr : nfresh h2 = nfresh h1) by reflexivity. assert (Po : npool h2 = npool h1) by reflexivity. clearbody h2.
    exists h2, (ANode n (bb_merge (lbb l) (lbb m)) (ALeaf x l) (ALeaf s m)), q'. cbn [root erase aaddrs aleaves app subtree_insert new_node tbb tree_in].
    split; [reflexivity|]. split; [reflexivity|]. split; [|split; [|split; [|split; [|split; [|split; [|split]]]]]].
    + rewrite Vn, Vx, Vs. unfold leaf_at. rewrite Vx, Vs. cbn. auto 10.
    + unfold pool_in. rewrite Po. apply (chain_ext (fun x => n_par (nd h1 x))); [|exact Q1]. intros z Hz. rewrite Vo; [reflexivity| | |]; intros ->; tauto.
    + repeat constructor; cbn; intuition.
    + intros z Hz. rewrite Fr. cbn in Hz. assert (K : In z (n :: q') \/ z = x \/ z = s) by (cbn; intuition). destruct K as [K|[->| ->]]; [now apply Q3| |]; (split; [|lia]); apply Ins; cbn; auto.
    + constructor.
      * intros z Hz Nz. cbn in Nz. destruct (Nat.eq_dec z n) as [->|Zn].
        { exfalso. destruct (M2 n (or_introl eq_refl)) as [H|H]; [tauto|lia]. }
        rewrite Vo by (auto; intros ->; tauto). apply M1; [exact Hz|tauto].
      * intros z Hz. cbn in Hz. assert (K : In z (n :: q') \/ z = x \/ z = s) by (cbn; intuition). destruct K as [K|[->| ->]]; [|left; cbn; auto|left; cbn; auto].
        apply M2 in K as [K|K]; [left; cbn; auto|now right].
      * lia.
      * now rewrite Po.
      * cbn in *. lia.
    + intros z [<-|[<-|[]]]; cbn; auto.
    + now rewrite Vn.
    + split; [apply Permutation_refl|]. unfold ngrow in *. now rewrite Fr.
  - destruct fuel as [|fuel]; [cbn in Lf; lia|]. cbn [h_subtree_insert root]. pose proof Ht as Ht0. cbn [tree_in] in Ht. destruct Ht as (H1 & H2 & H3 & H4 & H5 & H6 & H7 & H8).
    rewrite H1, H3, H4. rewrite (go_b_heap h a c (lbb l) x l H7 H8 Hl eq_refl). cbn [aaddrs app length] in *. rewrite app_length in Lf.
    cbn [erase subtree_insert].
    pose proof Nd as Nd0. rewrite <- app_assoc in Nd. apply NoDup_cons_iff in Nd as (Ny & Nd). rewrite !in_app_iff in Ny.
    apply nodup_app_iff in Nd as (Na & Nd & Dac). apply nodup_app_iff in Nd as (Nc & Nd & Dcq).
    assert (Lt : forall z, In z (y :: (aaddrs a ++ aaddrs c) ++ x :: q) -> 0 < z < nfresh h) by exact Ins.
    destruct (go_b (erase a) (erase c) (lbb l)).
    + destruct (IHc fuel h d x l q ltac:(lia) H8 Hl Hq) as (h1 & c' & q' & E & Ee & T1 & P1 & N1 & I1 & M1 & Inc & Par & Pm & Gr).
      { apply nodup_app_iff. auto. }
      { intros z Hz. apply Lt. right. rewrite <- app_assoc. apply in_or_app. now right. }
      rewrite E. destruct M1 as [M1 M2 M3 M4 M5].
      assert (Out : forall z, z = y \/ In z (aaddrs a) -> z < nfresh h /\ ~ In z (aaddrs c ++ x :: q) /\ ~ In z (aaddrs c' ++ q')).
      { intros z Hz. assert (Z : z < nfresh h /\ ~ In z (aaddrs c ++ x :: q)).
        { destruct Hz as [->|Hz]; [split; [apply Lt; now left|rewrite in_app_iff; tauto]|]. split; [apply Lt; right; rewrite !in_app_iff; auto|]. now apply Dac. }
        destruct Z as (Z1 & Z2). split; [exact Z1|]. split; [exact Z2|]. intros H. apply M2 in H as [H|H]; [contradiction|lia]. }
      assert (Ey : nd h1 y = nd h y) by (destruct (Out y ltac:(auto)) as (A & A2 & _); now apply M1).
      assert (Ry : root c' <> y) by (intros R; destruct (Out y ltac:(auto)) as (_ & _ & A); apply A; apply in_or_app; left; rewrite <- R; apply root_in).
      set (h2 := set_nbb (node_set_b h1 y (root c')) y _).
      assert (Lx : lbb l = n_bb (nd (node_set_b h1 y (root c')) x)).
      { assert (Xin : In x (aaddrs c')) by (apply Inc; now left).
        assert (Xy : x <> y) by (intros ->; destruct (Out y ltac:(auto)) as (_ & _ & A); apply A; apply in_or_app; auto).
        assert (L2 : n_bb (nd h1 x) = lbb l).
        { assert (G : forall t, tree_in h1 t -> forall x l, In (x, l) (aleaves t) -> n_bb (nd h1 x) = lbb l).
          { clear. induction t as [z m|z b a IHa c IHc]; cbn; intros Ht x l; [intros [E|[]]; injection E as <- <-; apply Ht|].
            intros H. apply in_app_iff in H as [H|H]; [apply IHa|apply IHc]; tauto. }
          apply (G c' T1). apply (Permutation_in _ (Permutation_sym Pm)). now left. }
        unfold node_set_b, set_par, set_b, set_nd. cbn. unfold put. destruct (x =? root c') eqn:Q; cbn; [apply Nat.eqb_eq in Q; rewrite <- Q|]; rewrite (proj2 (Nat.eqb_neq x y) Xy); auto. }
      assert (Vy : nd h2 y = mkHN None (bb_merge b (lbb l)) (n_par (nd h y)) (Some (root a)) (Some (root c')) (n_stamp (nd h y))).
      { unfold h2, set_nbb, set_nd. cbn [nd]. rewrite put_eq, <- Lx. unfold node_set_b, set_par, set_b, set_nd. cbn. rewrite (put_ne _ (root c') y) by congruence. rewrite put_eq. cbn. rewrite Ey, H1, H2, H3. reflexivity. }
      assert (Vc : nd h2 (root c') = let n := nd h1 (root c') in mkHN (n_obj n) (n_bb n) (Some y) (n_a n) (n_b n) (n_stamp n)).
      { unfold h2, set_nbb, set_nd. cbn [nd]. rewrite put_ne by exact Ry. unfold node_set_b, set_par, set_b, set_nd. cbn. rewrite put_eq. rewrite (put_ne _ y (root c')) by exact Ry. reflexivity. }
      assert (Vo : forall z, z <> y -> z <> root c' -> nd h2 z = nd h1 z).
      { intros z Z1 Z2. unfold h2, set_nbb, set_nd. cbn [nd]. rewrite put_ne by exact Z1. unfold node_set_b, set_par, set_b, set_nd. cbn. rewrite !put_ne by auto. reflexivity. }
      assert (Fr : nfresh h2 = nfresh h1) by reflexivity. assert (Po : npool h2 = npool h1) by reflexivity.
      fold h2. clearbody h2. clear Lx.
      assert (Rc : In (root c') (aaddrs c')) by apply root_in.
      pose proof (nodup_app_l _ _ N1) as N1c.
      exists h2, (ANode y (bb_merge b (lbb l)) a c'), q'. cbn [root erase tree_in aaddrs aleaves app].
      split; [reflexivity|]. split; [now rewrite Ee|]. split; [|split; [|split; [|split; [|split; [|split; [|split]]]]]].
      * assert (Ra : root a <> y /\ root a <> root c').
        { destruct (Out (root a) ltac:(right; apply root_in)) as (_ & A2 & A3). split; intros R; [apply Ny; left; rewrite <- R; apply root_in|].
          apply A3. rewrite R. apply in_or_app. auto. }
        rewrite Vy, Vc. cbn. rewrite (Vo (root a)) by apply Ra. rewrite (M1 (root a)) by (apply Out; right; apply root_in). sp; auto.
        -- apply (tree_in_same h); auto. intros z Hz. destruct (Out z ltac:(auto)) as (A1 & A2 & A3). rewrite Vo; [now apply M1| |]; intros ->; [tauto|]. apply A3. apply in_or_app. auto.
        -- apply (tree_in_ext h1); auto.
           ++ intros z Hz. assert (Zy : z <> y) by (intros ->; destruct (Out y ltac:(auto)) as (_ & _ & A); apply A; apply in_or_app; auto).
              destruct (Nat.eq_dec z (root c')) as [->|Zc]; [rewrite Vc; cbn; auto|rewrite (Vo z Zy Zc); auto].
           ++ intros z Hz Zc. assert (Zy : z <> y) by (intros ->; destruct (Out y ltac:(auto)) as (_ & _ & A); apply A; apply in_or_app; auto). now rewrite (Vo z Zy Zc).
      * unfold pool_in. rewrite Po. apply (chain_ext (fun x => n_par (nd h1 x))); [|exact P1]. intros z Hz.
        assert (Zy : z <> y) by (intros ->; destruct (Out y ltac:(auto)) as (_ & _ & A); apply A; apply in_or_app; auto).
        rewrite Vo; [reflexivity|exact Zy|]. intros ->. apply nodup_app_iff in N1 as (_ & _ & N1). now apply (N1 (root c')).
      * constructor.
        -- rewrite !in_app_iff. destruct (Out y ltac:(auto)) as (_ & _ & A). rewrite in_app_iff in A. tauto.
        -- rewrite <- app_assoc. apply nodup_app_iff. sp; auto. intros z Hz. apply Out. auto.
      * intros z Hz. rewrite Fr. destruct Hz as [<-|Hz]; [destruct (Lt y ltac:(now left)); lia|]. rewrite <- app_assoc in Hz. apply in_app_iff in Hz as [Hz|Hz]; [|now apply I1].
        destruct (Lt z ltac:(right; rewrite !in_app_iff; auto)). lia.
      * constructor.
        -- intros z Hz Nz. rewrite <- app_assoc in Nz. cbn in Nz. rewrite in_app_iff in Nz. rewrite Vo.
           ++ apply M1; tauto.
           ++ intros ->. tauto.
           ++ intros ->. destruct (M2 (root c')) as [H|H]; [apply in_or_app; auto|tauto|lia].
        -- intros z Hz. rewrite <- app_assoc in *. destruct Hz as [<-|Hz]; [left; now left|]. apply in_app_iff in Hz as [Hz|Hz]; [left; right; apply in_or_app; auto|].
           apply M2 in Hz as [Hz|Hz]; auto. left. right. apply in_or_app. auto.
        -- lia.
        -- now rewrite Po.
        -- cbn [length] in *. rewrite !app_length in *. cbn [length] in *. lia.
      * intros z [<-|[<-|Hz]]; cbn; [right; apply in_or_app; right; apply Inc; now left|auto|]. right. apply in_app_iff in Hz. apply in_or_app. destruct Hz as [Hz|Hz]; auto. right. apply Inc. now right.
      * rewrite Vy. cbn. reflexivity.
      * split; [rewrite Pm; symmetry; apply Permutation_middle|]. unfold ngrow in *. now rewrite Fr.
    + destruct (IHa fuel h d x l q ltac:(lia) H7 Hl Hq) as (h1 & a' & q' & E & Ee & T1 & P1 & N1 & I1 & M1 & Inc & Par & Pm & Gr).
      { apply nodup_app_iff. split; [exact Na|]. split; [exact Nd|]. intros z Hz Hq'. apply (Dac z Hz). apply in_or_app. now right. }
      { intros z Hz. apply Lt. right. rewrite !in_app_iff in *. tauto. }
      rewrite E. destruct M1 as [M1 M2 M3 M4 M5].
      assert (Out : forall z, z = y \/ In z (aaddrs c) -> z < nfresh h /\ ~ In z (aaddrs a ++ x :: q) /\ ~ In z (aaddrs a' ++ q')).
      { intros z Hz. assert (Z : z < nfresh h /\ ~ In z (aaddrs a ++ x :: q)).
        { destruct Hz as [->|Hz]; [split; [apply Lt; now left|rewrite in_app_iff; tauto]|]. split; [apply Lt; right; rewrite !in_app_iff; auto|].
          intros H. apply in_app_iff in H as [H|H]; [apply (Dac z H); apply in_or_app; auto|now apply (Dcq z)]. }
        destruct Z as (Z1 & Z2). split; [exact Z1|]. split; [exact Z2|]. intros H. apply M2 in H as [H|H]; [contradiction|lia]. }
      assert (Ey : nd h1 y = nd h y) by (destruct (Out y ltac:(auto)) as (A & A2 & _); now apply M1).
      assert (Ry : root a' <> y) by (intros R; destruct (Out y ltac:(auto)) as (_ & _ & A); apply A; apply in_or_app; left; rewrite <- R; apply root_in).
      set (h2 := set_nbb (node_set_a h1 y (root a')) y _).
      assert (Lx : lbb l = n_bb (nd (node_set_a h1 y (root a')) x)).
      { assert (Xin : In x (aaddrs a')) by (apply Inc; now left).
        assert (Xy : x <> y) by (intros ->; destruct (Out y ltac:(auto)) as (_ & _ & A); apply A; apply in_or_app; auto).
        assert (L2 : n_bb (nd h1 x) = lbb l).
        { assert (G : forall t, tree_in h1 t -> forall x l, In (x, l) (aleaves t) -> n_bb (nd h1 x) = lbb l).
          { clear. induction t as [z m|z b a IHa c IHc]; cbn; intros Ht x l; [intros [E|[]]; injection E as <- <-; apply Ht|].
            intros H. apply in_app_iff in H as [H|H]; [apply IHa|apply IHc]; tauto. }
          apply (G a' T1). apply (Permutation_in _ (Permutation_sym Pm)). now left. }
        unfold node_set_a, set_par, set_a, set_nd. cbn. unfold put. destruct (x =? root a') eqn:Q; cbn; [apply Nat.eqb_eq in Q; rewrite <- Q|]; rewrite (proj2 (Nat.eqb_neq x y) Xy); auto. }
      assert (Vy : nd h2 y = mkHN None (bb_merge b (lbb l)) (n_par (nd h y)) (Some (root a')) (Some (root c)) (n_stamp (nd h y))).
      { unfold h2, set_nbb, set_nd. cbn [nd]. rewrite put_eq, <- Lx. unfold node_set_a, set_par, set_a, set_nd. cbn. rewrite (put_ne _ (root a') y) by congruence. rewrite put_eq. cbn. rewrite Ey, H1, H2, H4. reflexivity. }
      assert (Vc : nd h2 (root a') = let n := nd h1 (root a') in mkHN (n_obj n) (n_bb n) (Some y) (n_a n) (n_b n) (n_stamp n)).
      { unfold h2, set_nbb, set_nd. cbn [nd]. rewrite put_ne by exact Ry. unfold node_set_a, set_par, set_a, set_nd. cbn. rewrite put_eq. rewrite (put_ne _ y (root a')) by exact Ry. reflexivity. }
      assert (Vo : forall z, z <> y -> z <> root a' -> nd h2 z = nd h1 z).
      { intros z Z1 Z2. unfold h2, set_nbb, set_nd. cbn [nd]. rewrite put_ne by exact Z1. unfold node_set_a, set_par, set_a, set_nd. cbn. rewrite !put_ne by auto. reflexivity. }
      assert (Fr : nfresh h2 = nfresh h1) by reflexivity. assert (Po : npool h2 = npool h1) by reflexivity.
      fold h2. clearbody h2. clear Lx.
      assert (Rc : In (root a') (aaddrs a')) by apply root_in.
      pose proof (nodup_app_l _ _ N1) as N1c.
      exists h2, (ANode y (bb_merge b (lbb l)) a' c), q'. cbn [root erase tree_in aaddrs aleaves app].
      split; [reflexivity|]. split; [now rewrite Ee|]. split; [|split; [|split; [|split; [|split; [|split; [|split]]]]]].
      * assert (Ra : root c <> y /\ root c <> root a').
        { destruct (Out (root c) ltac:(right; apply root_in)) as (_ & A2 & A3). split; intros R; [apply Ny; right; left; rewrite <- R; apply root_in|].
          apply A3. rewrite R. apply in_or_app. auto. }
        rewrite Vy, Vc. cbn. rewrite (Vo (root c)) by apply Ra. rewrite (M1 (root c)) by (apply Out; right; apply root_in). sp; auto.
        -- apply (tree_in_ext h1); auto.
           ++ intros z Hz. assert (Zy : z <> y) by (intros ->; destruct (Out y ltac:(auto)) as (_ & _ & A); apply A; apply in_or_app; auto).
              destruct (Nat.eq_dec z (root a')) as [->|Zc]; [rewrite Vc; cbn; auto|rewrite (Vo z Zy Zc); auto].
           ++ intros z Hz Zc. assert (Zy : z <> y) by (intros ->; destruct (Out y ltac:(auto)) as (_ & _ & A); apply A; apply in_or_app; auto). now rewrite (Vo z Zy Zc).
        -- apply (tree_in_same h); auto. intros z Hz. destruct (Out z ltac:(auto)) as (A1 & A2 & A3). rewrite Vo; [now apply M1| |]; intros ->; [tauto|]. apply A3. apply in_or_app. auto.
      * unfold pool_in. rewrite Po. apply (chain_ext (fun x => n_par (nd h1 x))); [|exact P1]. intros z Hz.
        assert (Zy : z <> y) by (intros ->; destruct (Out y ltac:(auto)) as (_ & _ & A); apply A; apply in_or_app; auto).
        rewrite Vo; [reflexivity|exact Zy|]. intros ->. apply nodup_app_iff in N1 as (_ & _ & N1). now apply (N1 (root a')).
      * constructor.
        -- rewrite !in_app_iff. destruct (Out y ltac:(auto)) as (_ & _ & A). rewrite in_app_iff in A. tauto.
        -- apply nodup_app_iff in N1 as (N1a & N1b & N1d). rewrite <- app_assoc. apply nodup_app_iff. split; [exact N1c|]. split.
           ++ apply nodup_app_iff. sp; auto. intros z Hz Hq'. destruct (Out z ltac:(auto)) as (_ & _ & A). apply A. apply in_or_app. auto.
           ++ intros z Hz Hc. apply in_app_iff in Hc as [Hc|Hc]; [|now apply (N1d z)]. destruct (Out z ltac:(auto)) as (_ & _ & A). apply A. apply in_or_app. auto.
      * intros z Hz. rewrite Fr. destruct Hz as [<-|Hz]; [destruct (Lt y ltac:(now left)); lia|]. rewrite !in_app_iff in Hz. destruct Hz as [[Hz|Hz]|Hz]; [apply I1; apply in_or_app; auto| |apply I1; apply in_or_app; auto].
        destruct (Lt z ltac:(right; rewrite !in_app_iff; auto)). lia.
      * constructor.
        -- intros z Hz Nz. cbn in Nz. rewrite !in_app_iff in Nz. cbn in Nz. rewrite Vo.
           ++ apply M1; [exact Hz|]. rewrite in_app_iff. cbn. tauto.
           ++ intros ->. tauto.
           ++ intros ->. destruct (M2 (root a')) as [H|H]; [apply in_or_app; auto|rewrite in_app_iff in H; cbn in H; tauto|lia].
        -- intros z Hz. destruct Hz as [<-|Hz]; [left; now left|]. rewrite !in_app_iff in Hz. destruct Hz as [[Hz|Hz]|Hz].
           ++ destruct (M2 z ltac:(apply in_or_app; auto)) as [H|H]; auto. left. right. rewrite !in_app_iff in *. tauto.
           ++ left. right. rewrite !in_app_iff. auto.
           ++ destruct (M2 z ltac:(apply in_or_app; auto)) as [H|H]; auto. left. right. rewrite !in_app_iff in *. tauto.
        -- lia.
        -- now rewrite Po.
        -- cbn [length] in *. rewrite !app_length in *. cbn [length] in *. lia.
      * intros z [<-|[<-|Hz]]; cbn; [right; apply in_or_app; left; apply Inc; now left|auto|]. right. apply in_app_iff in Hz. apply in_or_app. destruct Hz as [Hz|Hz]; auto. left. apply Inc. now right.
      * rewrite Vy. cbn. reflexivity.
      * split; [rewrite Pm; reflexivity|]. unfold ngrow in *. now rewrite Fr.
Qed.
End N.
