(** Model/BBTreeHeap.v: a leaf and the way from it to the root; SubtreeRemove. *)
From Coq Require Import ZArith Arith Bool List Lia Permutation.
From Verif Require Import Num.
From Verif.Model Require Import Vector BB BBTree Threads BBTreeHeap.
From Verif.Proofs Require Import Util ThreadsPf BBHeapPairs BBTreeInv BBHeapNodes.
Import ListNotations.
Local Open Scope nat_scope.

Section Z.
Context {T : Type} {NT : Num T}.
Notation B := (BB T).
Notation tree := (tree T).
Notation leaf := (leaf T).
Notation nheap := (nheap T).
Notation atree := (@atree T).

(** one step up: the parent, its box, whether we come from its child a, the other child *)
Record frame := mkF { f_x : nat; f_b : B; f_left : bool; f_s : atree }.
Notation ctx := (list frame).
Definition node_of (f : frame) (t : atree) : atree := if f_left f then ANode (f_x f) (f_b f) t (f_s f) else ANode (f_x f) (f_b f) (f_s f) t.
Fixpoint plug (c : ctx) (t : atree) : atree := match c with [] => t | f :: c => plug c (node_of f t) end.
Definition cpar (c : ctx) : option nat := match c with [] => None | f :: _ => Some (f_x f) end.
Definition caddrs (c : ctx) : list nat := flat_map (fun f => f_x f :: aaddrs (f_s f)) c.
Definition cleaves (c : ctx) : list (nat * leaf) := flat_map (fun f => aleaves (f_s f)) c.
Fixpoint ctx_in (h : nheap) (k : nat) (c : ctx) : Prop :=
  match c with
  | [] => True
  | f :: c => let n := nd h (f_x f) in
      n_obj n = None /\ n_bb n = f_b f /\ n_a n = Some (if f_left f then k else root (f_s f)) /\ n_b n = Some (if f_left f then root (f_s f) else k) /\
      n_par (nd h (root (f_s f))) = Some (f_x f) /\ tree_in h (f_s f) /\ n_par n = cpar c /\ ctx_in h (f_x f) c
  end.

Lemma root_node f t : root (node_of f t) = f_x f.
Proof. unfold node_of. now destruct (f_left f). Qed.
Lemma plug_in h : forall c t, (tree_in h (plug c t) /\ n_par (nd h (root (plug c t))) = None) <-> (tree_in h t /\ n_par (nd h (root t)) = cpar c /\ ctx_in h (root t) c).
Proof.
  induction c as [|f c IH]; intros t; cbn [plug cpar ctx_in]; [tauto|]. rewrite IH, root_node. unfold node_of. destruct (f_left f); cbn [tree_in]; tauto.
Qed.
Lemma plug_addrs : forall c t, Permutation (aaddrs (plug c t)) (aaddrs t ++ caddrs c).
Proof.
  induction c as [|f c IH]; intros t; cbn [plug caddrs flat_map]; [now rewrite app_nil_r|]. rewrite IH. fold (caddrs c). rewrite app_assoc. apply Permutation_app_tail.
  unfold node_of. destruct (f_left f); cbn [aaddrs]; [apply Permutation_cons_app, Permutation_refl|].
  apply Permutation_cons_app. apply Permutation_app_comm.
Qed.
Lemma plug_leaves : forall c t, Permutation (aleaves (plug c t)) (aleaves t ++ cleaves c).
Proof.
  induction c as [|f c IH]; intros t; cbn [plug cleaves flat_map]; [now rewrite app_nil_r|]. rewrite IH. fold (cleaves c). rewrite app_assoc. apply Permutation_app_tail.
  unfold node_of. destruct (f_left f); cbn [aleaves]; [reflexivity|apply Permutation_app_comm].
Qed.
Lemma plug_app c1 c2 t : plug (c1 ++ c2) t = plug c2 (plug c1 t).
Proof. revert t. induction c1 as [|f c IH]; intros t; cbn; [reflexivity|apply IH]. Qed.
Lemma find_ctx : forall t x l, In (x, l) (aleaves t) -> exists c, t = plug c (ALeaf x l).
Proof.
  induction t as [y m|y b a IHa c IHc]; intros x l; cbn; [intros [E|[]]; injection E as -> ->; now exists []|].
  intros H. apply in_app_iff in H as [H|H].
  - destruct (IHa _ _ H) as (k & ->). exists (k ++ [mkF y b true c]). now rewrite plug_app.
  - destruct (IHc _ _ H) as (k & ->). exists (k ++ [mkF y b false a]). now rewrite plug_app.
Qed.
Lemma ctx_in_same h h' : forall c k, (forall y, In y (caddrs c) -> nd h' y = nd h y) -> NoDup (caddrs c) -> ctx_in h k c -> ctx_in h' k c.
Proof.
  induction c as [|f c IH]; intros k E Nd; cbn [ctx_in]; [auto|]. cbn [caddrs flat_map] in *. fold (caddrs c) in *. cbn [app] in *.
  apply NoDup_cons_iff in Nd as (Nx & Nd). apply nodup_app_iff in Nd as (Na & Nc & _).
  intros (H1 & H2 & H3 & H4 & H5 & H6 & H7 & H8). rewrite (E (f_x f)) by (now left). rewrite (E (root (f_s f))) by (right; apply in_or_app; left; apply root_in).
  sp; auto.
  - apply (tree_in_same h); auto. intros y Hy. apply E. right. apply in_or_app. auto.
  - apply IH; auto. intros y Hy. apply E. right. apply in_or_app. auto.
Qed.

(** ** on values *)
Definition fctx (c : ctx) : list (tree * bool) := map (fun f => (erase (f_s f), f_left f)) c.
(** going up, every box on the way is computed again *)
Fixpoint replug (c : ctx) (t : atree) : atree :=
  match c with
  | [] => t
  | f :: c => replug c (if f_left f then ANode (f_x f) (bb_merge (abb t) (abb (f_s f))) t (f_s f) else ANode (f_x f) (bb_merge (abb (f_s f)) (abb t)) (f_s f) t)
  end.
Fixpoint frefit (c : list (tree * bool)) (t : tree) : tree :=
  match c with [] => t | (s, lf) :: c => frefit c (if lf then new_node t s else new_node s t) end.
Lemma erase_replug : forall c t, erase (replug c t) = frefit (fctx c) (erase t).
Proof. induction c as [|f c IH]; intros t; cbn; [reflexivity|]. rewrite IH. unfold new_node, abb. now destruct (f_left f). Qed.
Definition lids (L : list (nat * leaf)) : list nat := map (fun p => lid (snd p)) L.
Lemma erase_ids t : map lid (leaves (erase t)) = lids (aleaves t).
Proof. rewrite erase_leaves, map_map. reflexivity. Qed.
Lemma remove_absent_some t id : ~ In id (map lid (leaves t)) -> subtree_remove t id = None.
Proof.
  intros N. destruct (subtree_remove t id) as [r|] eqn:E; [|reflexivity]. destruct (remove_some _ _ _ E) as (l1 & x & l2 & E1 & E2 & _).
  exfalso. apply N. rewrite E1, map_app. cbn. rewrite E2. apply in_or_app. right. now left.
Qed.
Lemma remove_up id : forall c t r, ~ In id (lids (cleaves c)) -> subtree_remove (erase t) id = Some (Some r) -> subtree_remove (erase (plug c t)) id = Some (Some (frefit (fctx c) r)).
Proof.
  induction c as [|f c IH]; intros t r N E; cbn [plug]; [exact E|]. cbn [cleaves flat_map] in N. fold (cleaves c) in N. unfold lids in N. rewrite map_app, in_app_iff in N. cbn [fctx map frefit]. fold (fctx c).
  apply IH; [unfold lids; tauto|]. unfold node_of. destruct (f_left f); cbn [erase subtree_remove].
  - now rewrite E.
  - rewrite (remove_absent_some (erase (f_s f))) by (rewrite erase_ids; unfold lids; tauto). now rewrite E.
Qed.
Lemma remove_plug c x l : ~ In (lid l) (lids (cleaves c)) ->
  subtree_remove (erase (plug c (ALeaf x l))) (lid l) = Some (match c with [] => None | f :: c => Some (frefit (fctx c) (erase (f_s f))) end).
Proof.
  intros N. destruct c as [|f c]; [cbn; now rewrite Nat.eqb_refl|]. cbn [plug]. cbn [cleaves flat_map] in N. fold (cleaves c) in N. unfold lids in N. rewrite map_app, in_app_iff in N.
  apply remove_up; [unfold lids; tauto|]. unfold node_of. destruct (f_left f); cbn [erase subtree_remove].
  - now rewrite Nat.eqb_refl.
  - rewrite (remove_absent_some (erase (f_s f))) by (rewrite erase_ids; unfold lids; tauto). cbn. now rewrite Nat.eqb_refl.
Qed.
Lemma path_up id : forall c t p, ~ In id (lids (cleaves c)) -> path (erase t) id = Some p -> path (erase (plug c t)) id = Some (p ++ fctx c).
Proof.
  induction c as [|f c IH]; intros t p N E; cbn [plug fctx map]; [now rewrite app_nil_r|]. cbn [cleaves flat_map] in N. fold (cleaves c) in N. unfold lids in N. rewrite map_app, in_app_iff in N. fold (fctx c).
  rewrite (IH _ (p ++ [(erase (f_s f), f_left f)])); [now rewrite <- app_assoc|unfold lids; tauto|]. unfold node_of. destruct (f_left f); cbn [erase path].
  - now rewrite E.
  - rewrite (path_none (erase (f_s f))) by (rewrite erase_ids; unfold lids; tauto). now rewrite E.
Qed.
Lemma path_plug c x l : ~ In (lid l) (lids (cleaves c)) -> path (erase (plug c (ALeaf x l))) (lid l) = Some (fctx c).
Proof. intros N. rewrite (path_up (lid l) c _ []); [reflexivity|exact N|]. cbn. now rewrite Nat.eqb_refl. Qed.

Lemma replug_addrs : forall c t, Permutation (aaddrs (replug c t)) (aaddrs t ++ caddrs c).
Proof.
  induction c as [|f c IH]; intros t; cbn [replug caddrs flat_map]; [now rewrite app_nil_r|]. rewrite IH. fold (caddrs c). rewrite app_assoc. apply Permutation_app_tail.
  destruct (f_left f); cbn [aaddrs]; [apply Permutation_cons_app, Permutation_refl|]. apply Permutation_cons_app. apply Permutation_app_comm.
Qed.
Lemma replug_leaves : forall c t, Permutation (aleaves (replug c t)) (aleaves t ++ cleaves c).
Proof.
  induction c as [|f c IH]; intros t; cbn [replug cleaves flat_map]; [now rewrite app_nil_r|]. rewrite IH. fold (cleaves c). rewrite app_assoc. apply Permutation_app_tail.
  destruct (f_left f); cbn [aleaves]; [reflexivity|apply Permutation_app_comm].
Qed.
Lemma root_replug : forall c t t', root t = root t' -> root (replug c t) = root (plug c t').
Proof.
  induction c as [|f c IH]; intros t t' E; cbn [replug plug]; [exact E|]. apply IH. rewrite root_node. now destruct (f_left f).
Qed.

(** ** the loop at the end of ReplaceChild *)
Lemma refit_in : forall c t fuel h, tree_in h t -> n_par (nd h (root t)) = cpar c -> ctx_in h (root t) c -> NoDup (aaddrs t ++ caddrs c) -> length c <= fuel ->
  exists h', refit fuel h (cpar c) = Some h' /\ tree_in h' (replug c t) /\ n_par (nd h' (root (replug c t))) = None /\
    (forall y, ~ In y (caddrs c) -> nd h' y = nd h y) /\ nfresh h' = nfresh h /\ npool h' = npool h.
Proof.
  induction c as [|f c IH]; intros t fuel h Ht Hp Hc Nd Lf; cbn [cpar replug].
  - exists h. destruct fuel; cbn; sp; auto.
  - destruct fuel as [|fuel]; [cbn in Lf; lia|]. cbn in Lf. cbn [ctx_in] in Hc. destruct Hc as (H1 & H2 & H3 & H4 & H5 & H6 & H7 & H8). cbn [refit]. rewrite H3, H4.
    cbn [caddrs flat_map] in *. fold (caddrs c) in *. cbn [app] in *.
    pose proof (Permutation_NoDup (Permutation_sym (Permutation_middle _ _ _)) Nd) as Nd1. apply NoDup_cons_iff in Nd1 as (Nx & Nd1). rewrite !in_app_iff in Nx.
    pose proof Nd1 as Nd2. apply nodup_app_iff in Nd2 as (Nt & Nd2 & D1). apply nodup_app_iff in Nd2 as (Ns & Ncc & D2).
    set (v := bb_merge _ _). set (h1 := set_nbb h (f_x f) v).
    assert (V : forall y, y <> f_x f -> nd h1 y = nd h y) by (intros y Ny; unfold h1, set_nbb, set_nd; cbn; now apply put_ne).
    assert (Vx : nd h1 (f_x f) = let n := nd h (f_x f) in mkHN (n_obj n) v (n_par n) (n_a n) (n_b n) (n_stamp n)) by (unfold h1, set_nbb, set_nd; cbn; now rewrite put_eq).
    assert (Rt : root t <> f_x f) by (intros E; apply Nx; left; rewrite <- E; apply root_in).
    assert (Rs : root (f_s f) <> f_x f) by (intros E; apply Nx; right; left; rewrite <- E; apply root_in).
    set (t1 := if f_left f then ANode (f_x f) (bb_merge (abb t) (abb (f_s f))) t (f_s f) else ANode (f_x f) (bb_merge (abb (f_s f)) (abb t)) (f_s f) t).
    assert (R1 : root t1 = f_x f) by (unfold t1; now destruct (f_left f)).
    assert (Tt : tree_in h1 t) by (apply (tree_in_same h); auto; intros y Hy; apply V; intros ->; tauto).
    assert (Ts : tree_in h1 (f_s f)) by (apply (tree_in_same h); auto; intros y Hy; apply V; intros ->; tauto).
    assert (T1 : tree_in h1 t1).
    { unfold t1, v in *. rewrite (tree_bb h t Ht) in * || idtac. destruct (f_left f); cbn [tree_in]; rewrite Vx; cbn [n_obj n_bb n_par n_a n_b n_stamp]; rewrite ?(V _ Rt), ?(V _ Rs), ?(tree_bb h t Ht), ?(tree_bb h _ H6); sp; auto. }
    assert (P1 : n_par (nd h1 (f_x f)) = cpar c) by (rewrite Vx; exact H7).
    assert (Ei : n_par (nd h1 (f_x f)) = cpar c) by exact P1.
    rewrite P1. destruct (IH t1 fuel h1) as (h' & A1 & A2 & A3 & A4 & A5 & A6); auto.
    + now rewrite R1.
    + rewrite R1. apply (ctx_in_same h); auto. intros y Hy. apply V. intros ->. tauto.
    + eapply Permutation_NoDup; [|exact Nd]. symmetry. unfold t1. change (f_x f :: aaddrs (f_s f) ++ caddrs c) with ((f_x f :: aaddrs (f_s f)) ++ caddrs c). rewrite app_assoc. apply Permutation_app_tail.
      destruct (f_left f); cbn [aaddrs]; [apply Permutation_cons_app, Permutation_refl|]. apply Permutation_cons_app. apply Permutation_app_comm.
    + lia.
    + exists h'. fold t1. sp; auto. intros y Ny. cbn in Ny. rewrite in_app_iff in Ny. rewrite A4 by tauto. apply V. intros ->. tauto.
Qed.

(** ** a tree with its free list *)
Definition oaddrs (t : option atree) : list nat := match t with None => [] | Some t => aaddrs t end.
Definition oaleaves (t : option atree) : list (nat * leaf) := match t with None => [] | Some t => aleaves t end.
Definition mine (t : option atree) (lo : list (nat * leaf)) (q : list nat) : list nat := oaddrs t ++ map fst lo ++ q.
Record side (h : nheap) (d : bool) (r : option nat) (t : option atree) (lo : list (nat * leaf)) (q : list nat) : Prop := mkSide {
  sd_root : r = option_map root t;
  sd_tree : match t with None => True | Some t => tree_in h t /\ n_par (nd h (root t)) = None end;
  sd_loose : forall x l, In (x, l) lo -> leaf_at h x l;
  sd_pool : pool_in h d q;
  sd_nodup : NoDup (mine t lo q);
  sd_in : inside h (mine t lo q) }.

Lemma side_frame h h' d r t lo q m m' : side h (negb d) r t lo q -> moved d h h' m m' -> (forall y, In y m -> ~ In y (mine t lo q)) ->
  side h' (negb d) r t lo q /\ (forall y, In y m' -> ~ In y (mine t lo q)).
Proof.
  intros [S1 S2 S3 S4 S5 S6] [M1 M2 M3 M4 _] D.
  assert (E : forall y, In y (mine t lo q) -> nd h' y = nd h y) by (intros y Hy; apply M1; [now apply S6|intros H; now apply (D y)]).
  unfold mine in *. pose proof S5 as S5'. apply nodup_app_iff in S5' as (N1 & N2 & _).
  split; [constructor|]; auto.
  - destruct t as [t|]; [|exact Logic.I]. cbn [oaddrs] in *. destruct S2 as (A & P). split; [apply (tree_in_same h); auto; intros y Hy; apply E; apply in_or_app; auto|].
    rewrite E; [exact P|]. apply in_or_app. left. apply root_in.
  - intros x l H. unfold leaf_at. rewrite E; [now apply S3|]. apply in_or_app. right. apply in_or_app. left. apply in_map_iff. exists (x, l). auto.
  - unfold pool_in. rewrite M4. apply (chain_ext (fun x => n_par (nd h x))); [|exact S4]. intros y Hy. rewrite E; [reflexivity|]. rewrite !in_app_iff. auto.
  - intros y Hy. apply S6 in Hy. lia.
  - intros y Hy Hm. apply M2 in Hy as [Hy|Hy]; [now apply (D y)|]. apply S6 in Hm. lia.
Qed.
Lemma moved_refl d (h : nheap) m m' : incl m' m -> length m' = length m -> moved d h h m m'.
Proof. intros I L. constructor; auto. Qed.

Lemma side_recycle (h : nheap) d r t x l lo q : side h d r t ((x, l) :: lo) q ->
  side (recycle_node h d x) d r t lo (x :: q) /\ moved d h (recycle_node h d x) (mine t ((x, l) :: lo) q) (mine t lo (x :: q)).
Proof.
  intros [S1 S2 S3 S4 S5 S6]. unfold mine in *. cbn [map fst app] in *.
  pose proof (Permutation_NoDup (Permutation_sym (Permutation_middle _ _ _)) S5) as Nd. apply NoDup_cons_iff in Nd as (Nx & Nd). rewrite !in_app_iff in Nx.
  assert (V : forall y, y <> x -> nd (recycle_node h d x) y = nd h y) by (intros y Ny; cbn; now apply put_ne).
  pose proof Nd as Nd'. apply nodup_app_iff in Nd' as (Nt & _ & _).
  assert (P : Permutation (oaddrs t ++ x :: map fst lo ++ q) (oaddrs t ++ map fst lo ++ x :: q)) by (apply Permutation_app_head; apply Permutation_middle).
  split; [constructor|constructor]; auto.
  - destruct t as [t|]; [|exact Logic.I]. cbn [oaddrs] in *. destruct S2 as (A & P0). split; [apply (tree_in_same h); auto; intros y Hy; apply V; intros ->; tauto|].
    rewrite V; [exact P0|]. intros E. apply Nx. left. rewrite <- E. apply root_in.
  - intros y m H. unfold leaf_at. rewrite V; [now apply S3; right|]. intros ->. apply Nx. right. left. apply in_map_iff. exists (x, m). auto.
  - apply recycle_pool; auto.
  - unfold mine. now apply (Permutation_NoDup P).
  - intros y Hy. cbn. apply S6. now apply (Permutation_in _ (Permutation_sym P)).
  - intros y _ Ny. apply V. intros ->. apply Ny. apply in_or_app. right. now left.
  - intros y Hy. left. now apply (Permutation_in _ (Permutation_sym P)).
  - cbn. apply put2_neg.
  - cbn [recycle_node set_npool set_par set_nd nfresh]. unfold mine. cbn [map fst app]. apply Permutation_length in P. lia.
Qed.

Lemma ctx_len c : length c <= length (caddrs c).
Proof. induction c as [|f c IH]; cbn; [lia|]. rewrite app_length. fold (caddrs c). lia. Qed.
Lemma inside_len (h : nheap) l : NoDup l -> inside h l -> length l <= nfresh h.
Proof. intros N I. apply bounded_length; auto. intros x Hx. now apply I. Qed.

Lemma root_plug_in : forall c t g, In (root (plug (g :: c) t)) (caddrs (g :: c)).
Proof.
  induction c as [|g' c IH]; intros t g; [cbn; left; symmetry; apply root_node|].
  change (In (root (plug (g' :: c) (node_of g t))) (f_x g :: aaddrs (f_s g) ++ caddrs (g' :: c))). right. apply in_or_app. right. apply IH.
Qed.
(** SubtreeRemove: the leaf comes loose, its parent goes to the free list *)
Lemma remove_side h d c x l lo q : side h d (Some (root (plug c (ALeaf x l)))) (Some (plug c (ALeaf x l))) lo q -> ~ In (lid l) (lids (cleaves c)) ->
  exists h' t' q', h_subtree_remove h d (Some (root (plug c (ALeaf x l)))) x = Some (h', option_map root t') /\
    side h' d (option_map root t') t' ((x, l) :: lo) q' /\
    moved d h h' (mine (Some (plug c (ALeaf x l))) lo q) (mine t' ((x, l) :: lo) q') /\
    option_map erase t' = match c with [] => None | f :: c => Some (frefit (fctx c) (erase (f_s f))) end /\
    Permutation (oaleaves t') (cleaves c) /\ (t' = None -> n_par (nd h' x) = None) /\ nfresh h' = nfresh h.
Proof.
  intros [S1 S2 S3 S4 S5 S6] Nid. apply plug_in in S2 as (Hl & Hp & Hc). cbn [root tree_in] in *.
  assert (Pm : Permutation (mine (Some (plug c (ALeaf x l))) lo q) (x :: caddrs c ++ map fst lo ++ q)).
  { unfold mine. cbn [oaddrs]. rewrite plug_addrs. reflexivity. }
  assert (Nd : NoDup (x :: caddrs c ++ map fst lo ++ q)) by (apply (Permutation_NoDup Pm S5)).
  assert (Ins : inside h (x :: caddrs c ++ map fst lo ++ q)) by (intros y Hy; apply S6; now apply (Permutation_in _ (Permutation_sym Pm))).
  unfold h_subtree_remove. destruct c as [|f c].
  - cbn [plug root]. rewrite eqo_refl. exists h, None, q. cbn [option_map]. split; [reflexivity|]. split; [constructor|split; [|split; [|split; [|split]]]]; auto.
    + intros y m [E|H]; [injection E as <- <-; exact Hl|now apply S3].
    + apply moved_refl; [intros y Hy; cbn in *; tauto|reflexivity].
  - cbn [cpar ctx_in plug caddrs flat_map] in *. fold (caddrs c) in *. cbn [app] in *. destruct Hc as (H1 & H2 & H3 & H4 & H5 & H6 & H7 & H8).
    set (y := f_x f) in *. set (s := f_s f) in *.
    apply NoDup_cons_iff in Nd as (Nx & Nd). cbn [In] in Nx. rewrite !in_app_iff in Nx. apply NoDup_cons_iff in Nd as (Ny & Nd). rewrite !in_app_iff in Ny.
    rewrite <- app_assoc in Nd. apply nodup_app_iff in Nd as (Ns & Nd & Ds). pose proof Nd as Ndr. apply nodup_app_iff in Nd as (Nc & Nd & Dc).
    assert (Rin : In (root (plug c (node_of f (ALeaf x l)))) (y :: caddrs c)).
    { destruct c as [|g c]; [cbn; left; symmetry; apply root_node|]. right. apply root_plug_in. }
    rewrite eqo_ne by (intros E; injection E as E; rewrite <- E in Rin; cbn in Rin; destruct Rin as [R|R]; [apply Nx; left; exact R|tauto]).
    rewrite Hp. rewrite root_node in H8 || idtac.
    assert (Rs : In (root s) (aaddrs s)) by apply root_in.
    assert (Ot : h_other h y x = Some (root s)).
    { unfold h_other. rewrite H3, H4. destruct (f_left f); [now rewrite eqo_refl|]. rewrite eqo_ne; [reflexivity|]. intros E. injection E as E. rewrite <- E in Nx. tauto. }
    rewrite Ot.
    assert (Xy : x <> y) by (intros E; apply Nx; left; auto).
    assert (Sy : root s <> y) by (intros E; rewrite <- E in Ny; tauto).
    destruct c as [|g c].
    + cbn [plug]. rewrite root_node. fold y. rewrite eqo_refl. cbn [cpar] in H7. rewrite H7.
      set (h1 := set_par h (root s) None). exists (recycle_node h1 d y), (Some s), (y :: q). cbn [option_map]. split; [reflexivity|].
      assert (V : forall z, z <> y -> z <> root s -> nd (recycle_node h1 d y) z = nd h z) by (intros z Z1 Z2; cbn; now rewrite !put_ne).
      assert (Vs : nd (recycle_node h1 d y) (root s) = let n := nd h (root s) in mkHN (n_obj n) (n_bb n) None (n_a n) (n_b n) (n_stamp n)) by (cbn; rewrite put_ne by exact Sy; now rewrite put_eq).
      assert (Pm2 : Permutation (mine (Some s) ((x, l) :: lo) (y :: q)) (mine (Some (node_of f (ALeaf x l))) lo q)).
      { etransitivity; [|symmetry; exact Pm]. unfold mine. cbn [oaddrs map fst app]. cbn [caddrs flat_map app]. rewrite app_nil_r.
        symmetry. etransitivity; [|apply Permutation_middle]. apply perm_skip. etransitivity; [|apply Permutation_app_head, Permutation_middle].
        rewrite <- (Permutation_middle (aaddrs s)). reflexivity. }
      split; [constructor|split; [|split; [|split; [|split]]]]; auto; try discriminate.
      * split; [|rewrite Vs; reflexivity]. apply (tree_in_ext h); auto.
        -- intros z Hz. destruct (Nat.eq_dec z (root s)) as [->|Zs]; [rewrite Vs; cbn; auto|]. rewrite V; auto. intros ->. tauto.
        -- intros z Hz Zs. rewrite V; auto. intros ->. tauto.
      * intros z m Hz. unfold leaf_at. assert (K : z <> y /\ z <> root s).
        { destruct Hz as [E|Hz]; [injection E as <- <-; split; [exact Xy|intros ->; tauto]|].
          assert (In z (map fst lo)) by (apply in_map_iff; exists (z, m); auto). split; intros ->; [tauto|]. apply (Ds (root s)); auto. rewrite !in_app_iff. auto. }
        rewrite V by apply K. destruct Hz as [E|Hz]; [injection E as <- <-; exact Hl|now apply S3].
      * apply recycle_pool; [|tauto]. unfold pool_in. cbn. apply (chain_ext (fun x => n_par (nd h x))); [|exact S4]. intros z Hz. rewrite put_ne; [reflexivity|].
        intros ->. apply (Ds (root s)); auto. rewrite !in_app_iff. auto.
      * apply (Permutation_NoDup (Permutation_sym Pm2)). exact S5.
      * intros z Hz. cbn. apply S6. now apply (Permutation_in _ Pm2).
      * constructor; auto.
        -- intros z _ Hz. apply V; intros ->; apply Hz; apply (Permutation_in _ (Permutation_sym Pm)); cbn; [auto|]. right. right. apply in_or_app. left. apply in_or_app. now left.
        -- intros z Hz. left. now apply (Permutation_in _ Pm2).
        -- cbn. apply put2_neg.
        -- apply Permutation_length in Pm2. cbn [plug] in *. rewrite Pm2. reflexivity.
      * cbn [oaleaves cleaves flat_map]. now rewrite app_nil_r.
    + pose proof H8 as Hg. cbn [ctx_in] in Hg. destruct Hg as (G1 & G2 & G3 & G4 & G5 & G6 & G7 & G8). cbn [cpar] in H7. rewrite H7.
      set (z := f_x g) in *. set (s' := f_s g) in *.
      cbn [caddrs flat_map] in *. fold (caddrs c) in *. cbn [app] in *.
      assert (Rin' : In (root (plug (g :: c) (node_of f (ALeaf x l)))) (z :: aaddrs s' ++ caddrs c)).
      { apply (root_plug_in c). }
      cbn [In] in Ny, Nx, Dc. rewrite !in_app_iff in Ny. fold z s' in Ny, Nx, Dc, Ds, Nc.
      rewrite eqo_ne.
      2:{ intros E. injection E as E. cbn [plug] in Rin'. rewrite <- E in Rin'. cbn in Rin'. rewrite in_app_iff in Rin'. tauto. }
      apply NoDup_cons_iff in Nc as (Nz & Nc). rewrite in_app_iff in Nz. apply nodup_app_iff in Nc as (Nss & Ncc & Dss).
      assert (Zy : z <> y) by (intros E; tauto).
      assert (Rs' : In (root s') (aaddrs s')) by apply root_in.
      assert (Zs : z <> root s) by (intros E; apply (Ds (root s) Rs); rewrite <- E; now left).
      assert (Sy' : root s' <> y) by (intros E; rewrite <- E in Ny; tauto).
      unfold replace_child.
      assert (Ea : eqo (n_a (nd h z)) (Some y) = f_left g).
      { rewrite G3. destruct (f_left g); [apply eqo_refl|]. apply eqo_ne. intros E. injection E as E. contradiction. }
      rewrite Ea.
      set (h1 := if f_left g then node_set_a (recycle_node h d y) z (root s) else node_set_b (recycle_node h d y) z (root s)).
      assert (Eh : (if f_left g then Some (node_set_a (recycle_node h d y) z (root s)) else match n_b (nd h z) with Some b => Some (node_set_b (recycle_node h d b) z (root s)) | None => None end) = Some h1).
      { unfold h1. destruct (f_left g); [reflexivity|]. rewrite G4. reflexivity. }
      rewrite Eh. clear Eh.
      assert (Vo : forall w, w <> y -> w <> z -> w <> root s -> nd h1 w = nd h w).
      { intros w W1 W2 W3. unfold h1. destruct (f_left g); cbn; rewrite !put_ne by auto; reflexivity. }
      assert (Vz : nd h1 z = let n := nd h z in mkHN (n_obj n) (n_bb n) (n_par n) (if f_left g then Some (root s) else n_a n) (if f_left g then n_b n else Some (root s)) (n_stamp n)).
      { unfold h1. destruct (f_left g); cbn; rewrite (put_ne _ (root s) z) by exact Zs; rewrite put_eq; rewrite (put_ne _ y z) by exact Zy; reflexivity. }
      assert (Vs : nd h1 (root s) = let n := nd h (root s) in mkHN (n_obj n) (n_bb n) (Some z) (n_a n) (n_b n) (n_stamp n)).
      { unfold h1. destruct (f_left g); cbn; rewrite put_eq; rewrite (put_ne _ z (root s)) by congruence; rewrite (put_ne _ y (root s)) by exact Sy; reflexivity. }
      assert (Vy : n_par (nd h1 y) = npool h d).
      { unfold h1. destruct (f_left g); cbn; rewrite (put_ne _ (root s) y) by congruence; rewrite (put_ne _ z y) by congruence; rewrite put_eq; reflexivity. }
      assert (Fr : nfresh h1 = nfresh h) by (unfold h1; destruct (f_left g); reflexivity).
      assert (Po : npool h1 = put2 (npool h) d (Some y)) by (unfold h1; destruct (f_left g); reflexivity).
      clearbody h1.
      assert (T1 : tree_in h1 s).
      { apply (tree_in_ext h); auto.
        - intros w Hw. assert (W1 : w <> y) by (intros ->; tauto). assert (W2 : w <> z) by (intros ->; apply (Ds z Hw); now left).
          destruct (Nat.eq_dec w (root s)) as [->|Ws]; [rewrite Vs; cbn; auto|]. rewrite Vo; auto.
        - intros w Hw Ws. rewrite Vo; auto; [intros ->; tauto|intros ->; apply (Ds z Hw); now left]. }
      assert (Dsc : forall w, In w (aaddrs s' ++ caddrs c) -> w <> y /\ w <> z /\ w <> root s).
      { intros w Hw. rewrite in_app_iff in Hw. repeat split; intros ->; [tauto|tauto|]. apply (Ds (root s) Rs). right. rewrite !in_app_iff. tauto. }
      assert (C1 : ctx_in h1 (root s) (g :: c)).
      { cbn [ctx_in]. fold z s'. rewrite Vz. cbn [n_obj n_bb n_par n_a n_b n_stamp]. rewrite (Vo (root s')) by (apply Dsc; apply in_or_app; now left).
        sp; auto.
        - destruct (f_left g); [reflexivity|]. exact G3.
        - destruct (f_left g); [exact G4|reflexivity].
        - apply (tree_in_same h); auto. intros w Hw. apply Vo; apply (Dsc w); apply in_or_app; now left.
        - apply (ctx_in_same h); auto. intros w Hw. apply Vo; apply (Dsc w); apply in_or_app; now right. }
      assert (Ndz : NoDup (aaddrs s ++ caddrs (g :: c))).
      { apply nodup_app_iff. split; [exact Ns|]. split; [|].
        - cbn [caddrs flat_map app]. fold (caddrs c) z s'. constructor; [rewrite in_app_iff; tauto|]. apply nodup_app_iff. auto.
        - intros w Hw Hc. cbn [caddrs flat_map app] in Hc. fold (caddrs c) z s' in Hc. apply (Ds w Hw). destruct Hc as [E|Hc]; [left; exact E|]. right. rewrite !in_app_iff in *. tauto. }
      assert (Lc : length (g :: c) <= nfresh h1).
      { etransitivity; [apply ctx_len|]. rewrite Fr. apply inside_len; [now apply nodup_app_iff in Ndz|]. intros w Hw. apply Ins. cbn [caddrs flat_map app] in Hw. fold (caddrs c) z s' in Hw.
        right. right. cbn in Hw. rewrite !in_app_iff in *. cbn. rewrite !in_app_iff. tauto. }
      destruct (refit_in (g :: c) s (nfresh h1) h1 T1) as (h2 & A1 & A2 & A3 & A4 & A5 & A6); auto.
      { rewrite Vs. reflexivity. }
      cbn [cpar] in A1. fold z in A1. rewrite A1.
      assert (Zin : In z (caddrs (g :: c))) by (cbn; now left).
      exists h2, (Some (replug (g :: c) s)), (y :: q). cbn [option_map].
      assert (Rr : root (replug (g :: c) s) = root (plug (g :: c) (node_of f (ALeaf x l)))).
      { cbn [replug plug]. apply root_replug. rewrite root_node. now destruct (f_left g). }
      split; [now rewrite Rr|].
      assert (Pm2 : Permutation (mine (Some (replug (g :: c) s)) ((x, l) :: lo) (y :: q)) (mine (Some (plug (g :: c) (node_of f (ALeaf x l)))) lo q)).
      { etransitivity; [|symmetry; exact Pm]. unfold mine. cbn [oaddrs map fst]. cbn [app]. rewrite replug_addrs. cbn [caddrs flat_map]. fold (caddrs c) z s'.
        symmetry. etransitivity; [|apply Permutation_middle]. apply perm_skip. etransitivity; [|apply Permutation_app_head, Permutation_middle].
        etransitivity; [|apply Permutation_middle]. apply perm_skip. reflexivity. }
      assert (Vo2 : forall w, ~ In w (caddrs (g :: c)) -> w <> y -> w <> root s -> nd h2 w = nd h w).
      { intros w W1 W2 W3. rewrite A4 by exact W1. apply Vo; auto. intros ->. contradiction. }
      assert (Dlo : forall w, w = x \/ In w (map fst lo) \/ In w q -> ~ In w (caddrs (g :: c)) /\ w <> y /\ w <> root s).
      { intros w Hw. cbn [caddrs flat_map app]. fold (caddrs c) z s'. assert (K : In w (map fst lo ++ q) -> ~ (z = w \/ In w (aaddrs s' ++ caddrs c)) /\ w <> y /\ w <> root s).
        { intros H. rewrite in_app_iff in H. repeat split.
          - intros H'. now apply (Dc w H'); rewrite in_app_iff.
          - intros ->. tauto.
          - intros ->. apply (Ds (root s) Rs). right. rewrite !in_app_iff. tauto. }
        rewrite in_app_iff in K. destruct Hw as [->|Hw]; [|now apply K]. repeat split; [|exact Xy|intros ->; tauto].
        intros [E|H]; [tauto|]. rewrite in_app_iff in H. rewrite in_app_iff in Nx. tauto. }
      split; [constructor|split; [|split; [|split; [|split]]]]; auto; try discriminate.
      * intros w m Hw. unfold leaf_at. rewrite Vo2; [destruct Hw as [E|Hw]; [injection E as <- <-; exact Hl|now apply S3]| | |];
          (apply Dlo; destruct Hw as [E|Hw]; [injection E as <- <-; now left|right; left; apply in_map_iff; exists (w, m); auto]).
      * unfold pool_in. rewrite A6, Po, put2_eq. cbn [chain]. split; [reflexivity|].
        rewrite A4 by (cbn [caddrs flat_map app]; fold (caddrs c) z s'; intros [E|H]; [congruence|rewrite in_app_iff in H; tauto]). rewrite Vy.
        apply (chain_ext (fun x => n_par (nd h x))); [|exact S4]. intros w Hw. rewrite Vo2; [reflexivity| | |]; apply Dlo; auto.
      * apply (Permutation_NoDup (Permutation_sym Pm2)). exact S5.
      * intros w Hw. rewrite A5, Fr. apply S6. now apply (Permutation_in _ Pm2).
      * constructor.
        -- intros w _ Hw. apply Vo2; intros K; apply Hw; apply (Permutation_in _ (Permutation_sym Pm)).
           ++ right. right. rewrite !in_app_iff. cbn [caddrs flat_map] in K. fold (caddrs c) z s' in K. cbn [app] in K. tauto.
           ++ subst w. right. now left.
           ++ subst w. right. right. apply in_or_app. left. apply in_or_app. now left.
        -- intros w Hw. left. now apply (Permutation_in _ Pm2).
        -- lia.
        -- rewrite A6, Po. apply put2_neg.
        -- apply Permutation_length in Pm2. rewrite Pm2, A5, Fr. reflexivity.
      * now rewrite erase_replug.
      * cbn [oaleaves]. rewrite replug_leaves. reflexivity.
      * now rewrite A5, Fr.
Qed.
End Z.
