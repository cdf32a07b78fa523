(** bbtree.go with its pointers: nodes, parent pointers, the two free lists and the doubly linked
    pair lists, as Go's heap holds them.  Model/BBTree.v is the same code on values; that the two
    agree is proved in Proofs/BBHeap*.v.

    Addresses are numbers; nil is [None], except in Thread.leaf where the leaf of a pair never used
    is 0 (no node has address 0).  [None] as the result of an operation means that the Go code
    dereferences nil, calls a nil function, or does not come to an end.

    Simplifications:
    - Node.pairs is kept in the pair heap ([th_list]), the other fields of Node in the node heap;
      a Pair is the [TArb] of Model/Threads.v (two ends, two threads);
    - the hash set of leaves is a finite map from objects to nodes (Model/HashSet.v is the hash set);
    - stamps are unbounded naturals, collisionId is dropped (as in Model/BBTree.v);
    - fuel: a loop over nodes (pairs) that takes more rounds than there are nodes (pairs) is endless. *)
From Coq Require Import ZArith Bool List Arith.
From Verif Require Import Num.
From Verif.Model Require Import Vector BB BBTree Threads.
Import ListNotations.
Local Open Scope num_scope.

Notation "'let?' p := e 'in' f" := (match e with Some p => f | None => None end)
  (at level 200, p pattern, f at level 200).
Definition eqo (a b : option nat) : bool :=
  match a, b with Some x, Some y => (x =? y)%nat | None, None => true | _, _ => false end.
(** everything.go:15 *)
Definition POOLED_BUFFER_SIZE : nat := 1024.

(** ** Pairs *)
Record pheap := mkPH { pth : THeap; ppool : option nat; pfresh : nat }.
Definition ph_new : pheap := mkPH th_new None 0.

(** bbtree.go:235-239 *)
Definition recycle_pair (p : pheap) (x : nat) : pheap :=
  let r := th_arb (pth p) x in
  mkPH (mkTH (put (th_arb (pth p)) x (mkTArb (t_a r) (t_b r) (mkThr (ppool p) (th_prev (t_ta r))) (t_tb r))) (th_list (pth p)))
       (Some x) (pfresh p).
(** [&Pair{}] *)
Definition alloc_pair (p : pheap) : pheap * nat :=
  (mkPH (mkTH (put (th_arb (pth p)) (pfresh p) (mkTArb 0 0 nil_thr nil_thr)) (th_list (pth p))) (ppool p) (S (pfresh p)), pfresh p).
(** bbtree.go:228-230 *)
Fixpoint grow_pairs (k : nat) (p : pheap) : pheap :=
  match k with O => p | S k => let '(p, x) := alloc_pair p in grow_pairs k (recycle_pair p x) end.
(** bbtree.go:218-233 *)
Definition pair_from_pool (p : pheap) : pheap * nat :=
  match ppool p with
  | Some x => (mkPH (pth p) (th_next (t_ta (th_arb (pth p) x))) (pfresh p), x)
  | None => alloc_pair (grow_pairs POOLED_BUFFER_SIZE p)
  end.
Definition with_th (p : pheap) (h : THeap) : pheap := mkPH h (ppool p) (pfresh p).
(** bbtree.go:190-216: [set_prev h y a v] is [if y.a.leaf == a { y.a.prev = v } else { y.b.prev = v }] *)
Definition h_pair_insert (p : pheap) (a b : nat) : pheap :=
  let nextA := th_list (pth p) a in
  let nextB := th_list (pth p) b in
  let '(p, x) := pair_from_pool p in
  let h := mkTH (put (th_arb (pth p)) x (mkTArb a b (mkThr nextA None) (mkThr nextB None))) (th_list (pth p)) in
  let h := set_list (set_list h a (Some x)) b (Some x) in
  let h := match nextA with Some y => set_prev h y a (Some x) | None => h end in
  let h := match nextB with Some y => set_prev h y b (Some x) | None => h end in
  with_th p h.
(** bbtree.go:35-56: Unlink of the thread of pair [x] whose leaf is [m] *)
Definition unlink (h : THeap) (x m : nat) : THeap :=
  let next := th_next (thread h x m) in
  let prev := th_prev (thread h x m) in
  let h := match next with Some n => set_prev h n m prev | None => h end in
  match prev with Some q => set_next h q m next | None => set_list h m next end.
(** bbtree.go:388-400: the loop of PairsClear *)
Fixpoint clear_loop (fuel : nat) (p : pheap) (leaf : nat) (cur : option nat) : option pheap :=
  match cur with
  | None => Some p
  | Some x =>
    match fuel with
    | O => None
    | S fuel =>
      let r := th_arb (pth p) x in
      if (t_a r =? leaf)%nat then
        clear_loop fuel (recycle_pair (with_th p (unlink (pth p) x (t_b r))) x) leaf (th_next (t_ta r))
      else
        clear_loop fuel (recycle_pair (with_th p (unlink (pth p) x (t_a r))) x) leaf (th_next (t_tb r))
    end
  end.
(** bbtree.go:384-401 *)
Definition h_pairs_clear (p : pheap) (leaf : nat) : option pheap :=
  clear_loop (pfresh p) (with_th p (set_list (pth p) leaf None)) leaf (th_list (pth p) leaf).

Section Heap.
Context {T : Type} `{Num T}.
Notation B := (BB T).

(** ** Nodes *)
(** bbtree.go:7-24 *)
Record hnode := mkHN { n_obj : option nat; n_bb : B; n_par : option nat; n_a : option nat; n_b : option nat; n_stamp : nat }.
(** the nodes allocated so far, and pooledNodes of each tree (bbtree.go:65) *)
Record nheap := mkNH { nd : nat -> hnode; nfresh : nat; npool : bool -> option nat }.
Definition zero_bb : B := mkBB (nlit 0 1) (nlit 0 1) (nlit 0 1) (nlit 0 1).
Definition zero_node : hnode := mkHN None zero_bb None None None 0.
Definition nh_new : nheap := mkNH (fun _ => zero_node) 1 (fun _ => None).

Definition set_nd (h : nheap) (x : nat) (n : hnode) : nheap := mkNH (put (nd h) x n) (nfresh h) (npool h).
Definition set_par (h : nheap) (x : nat) (v : option nat) : nheap :=
  let n := nd h x in set_nd h x (mkHN (n_obj n) (n_bb n) v (n_a n) (n_b n) (n_stamp n)).
Definition set_a (h : nheap) (x : nat) (v : option nat) : nheap :=
  let n := nd h x in set_nd h x (mkHN (n_obj n) (n_bb n) (n_par n) v (n_b n) (n_stamp n)).
Definition set_b (h : nheap) (x : nat) (v : option nat) : nheap :=
  let n := nd h x in set_nd h x (mkHN (n_obj n) (n_bb n) (n_par n) (n_a n) v (n_stamp n)).
Definition set_nbb (h : nheap) (x : nat) (v : B) : nheap :=
  let n := nd h x in set_nd h x (mkHN (n_obj n) v (n_par n) (n_a n) (n_b n) (n_stamp n)).
Definition set_stamp (h : nheap) (x : nat) (v : nat) : nheap :=
  let n := nd h x in set_nd h x (mkHN (n_obj n) (n_bb n) (n_par n) (n_a n) (n_b n) v).

(** bbtree.go:484-487, 489-492 *)
Definition node_set_a (h : nheap) (n v : nat) : nheap := set_par (set_a h n (Some v)) v (Some n).
Definition node_set_b (h : nheap) (n v : nat) : nheap := set_par (set_b h n (Some v)) v (Some n).

Definition put2 {A} (f : bool -> A) (d : bool) (v : A) : bool -> A := fun d' => if Bool.eqb d' d then v else f d'.
Definition set_npool (h : nheap) (d : bool) (v : option nat) : nheap := mkNH (nd h) (nfresh h) (put2 (npool h) d v).
(** bbtree.go:523-526 *)
Definition recycle_node (h : nheap) (d : bool) (x : nat) : nheap := set_npool (set_par h x (npool h d)) d (Some x).
(** [&Node{}] *)
Definition alloc_node (h : nheap) : nheap * nat := (mkNH (put (nd h) (nfresh h) zero_node) (S (nfresh h)) (npool h), nfresh h).
(** bbtree.go:514-516 *)
Fixpoint grow_nodes (k : nat) (h : nheap) (d : bool) : nheap :=
  match k with O => h | S k => let '(h, x) := alloc_node h in grow_nodes k (recycle_node h d x) d end.
(** bbtree.go:505-521 *)
Definition node_from_pool (h : nheap) (d : bool) : nheap * nat :=
  match npool h d with
  | Some x => (set_npool h d (n_par (nd h x)), x)
  | None => let '(h, x) := alloc_node (grow_nodes POOLED_BUFFER_SIZE h d) in (set_par h x (npool h d), x)
  end.
(** bbtree.go:473-482; the fields not written keep what the recycled node held *)
Definition h_new_node (h : nheap) (d : bool) (a b : nat) : nheap * nat :=
  let '(h, x) := node_from_pool h d in
  let n := nd h x in
  let h := set_nd h x (mkHN None (bb_merge (n_bb (nd h a)) (n_bb (nd h b))) None (n_a n) (n_b n) (n_stamp n)) in
  (node_set_b (node_set_a h x a) x b, x).
(** bbtree.go:494-503; [node.pairs = nil] is done by the caller *)
Definition h_new_leaf (h : nheap) (d : bool) (id : nat) (b : B) : nheap * nat :=
  let '(h, x) := node_from_pool h d in
  let n := nd h x in
  (set_nd h x (mkHN (Some id) b None (n_a n) (n_b n) 0), x).

(** bbtree.go:250-258 *)
Definition h_go_b (h : nheap) (a b leaf : nat) : bool :=
  let A := n_bb (nd h a) in let C := n_bb (nd h b) in let L := n_bb (nd h leaf) in
  let cost_a := bb_area C + bb_merged_area A L in
  let cost_b := bb_area A + bb_merged_area C L in
  if cost_a =? cost_b then bb_proximity C L <? bb_proximity A L else cost_b <? cost_a.
(** bbtree.go:242-266 *)
Fixpoint h_subtree_insert (fuel : nat) (h : nheap) (d : bool) (sub : option nat) (leaf : nat) : option (nheap * nat) :=
  match fuel with
  | O => None
  | S fuel =>
    match sub with
    | None => Some (h, leaf)
    | Some s =>
      match n_obj (nd h s) with
      | Some _ => Some (h_new_node h d leaf s)
      | None =>
        match n_a (nd h s), n_b (nd h s) with
        | Some a, Some b =>
          let? (h, _) :=
            if h_go_b h a b leaf then
              let? (h, r) := h_subtree_insert fuel h d (Some b) leaf in Some (node_set_b h s r, r)
            else
              let? (h, r) := h_subtree_insert fuel h d (Some a) leaf in Some (node_set_a h s r, r) in
          Some (set_nbb h s (bb_merge (n_bb (nd h s)) (n_bb (nd h leaf))), s)
        | _, _ => None
        end
      end
    end
  end.

(** bbtree.go:299-304 *)
Definition h_other (h : nheap) (n child : nat) : option nat :=
  if eqo (n_a (nd h n)) (Some child) then n_b (nd h n) else n_a (nd h n).
(** bbtree.go:294-296: from [node] up to the root *)
Fixpoint refit (fuel : nat) (h : nheap) (node : option nat) : option nheap :=
  match node with
  | None => Some h
  | Some n =>
    match fuel with
    | O => None
    | S fuel =>
      match n_a (nd h n), n_b (nd h n) with
      | Some a, Some b => let h := set_nbb h n (bb_merge (n_bb (nd h a)) (n_bb (nd h b))) in refit fuel h (n_par (nd h n))
      | _, _ => None
      end
    end
  end.
(** bbtree.go:285-297 *)
Definition replace_child (h : nheap) (d : bool) (parent child value : nat) : option nheap :=
  let? h :=
    if eqo (n_a (nd h parent)) (Some child) then Some (node_set_a (recycle_node h d child) parent value)
    else match n_b (nd h parent) with
         | Some b => Some (node_set_b (recycle_node h d b) parent value)
         | None => None
         end in
  refit (nfresh h) h (Some parent).
(** bbtree.go:268-283 *)
Definition h_subtree_remove (h : nheap) (d : bool) (sub : option nat) (leaf : nat) : option (nheap * option nat) :=
  if eqo (Some leaf) sub then Some (h, None)
  else
    let? p := n_par (nd h leaf) in
    if eqo (Some p) sub then
      let? o := h_other h p leaf in
      Some (recycle_node (set_par h o (n_par (nd h p))) d p, Some o)
    else
      let? g := n_par (nd h p) in
      let? v := h_other h p leaf in
      let? h := replace_child h d g p v in
      Some (h, sub).

(** ** Marking.  [f]: the query function is not nil.  [acc]: the pair heap, the calls made so far. *)
Notation calls := (list (nat * nat)).
(** bbtree.go:173-189 *)
Fixpoint h_mlq (fuel : nat) (h : nheap) (sub leaf : nat) (left f : bool) (acc : pheap * calls) : option (pheap * calls) :=
  match fuel with
  | O => None
  | S fuel =>
    if bb_intersects (n_bb (nd h leaf)) (n_bb (nd h sub)) then
      match n_obj (nd h sub) with
      | Some so =>
        if left then Some (h_pair_insert (fst acc) leaf sub, snd acc)
        else
          let p := if (n_stamp (nd h sub) <? n_stamp (nd h leaf))%nat then h_pair_insert (fst acc) sub leaf else fst acc in
          let? lo := n_obj (nd h leaf) in
          if f then Some (p, snd acc ++ [(lo, so)]) else None
      | None =>
        match n_a (nd h sub), n_b (nd h sub) with
        | Some a, Some b => let? acc := h_mlq fuel h a leaf left f acc in h_mlq fuel h b leaf left f acc
        | _, _ => None
        end
      end
    else Some acc
  end.
(** bbtree.go:155-161: [for node := leaf; node.parent != nil; node = node.parent] *)
Fixpoint h_up (fuel : nat) (h : nheap) (node leaf : nat) (f : bool) (acc : pheap * calls) : option (pheap * calls) :=
  match fuel with
  | O => None
  | S fuel =>
    match n_par (nd h node) with
    | None => Some acc
    | Some p =>
      if eqo (Some node) (n_a (nd h p)) then
        let? b := n_b (nd h p) in let? acc := h_mlq (nfresh h) h b leaf true f acc in h_up fuel h p leaf f acc
      else
        let? a := n_a (nd h p) in let? acc := h_mlq (nfresh h) h a leaf false f acc in h_up fuel h p leaf f acc
    end
  end.
(** bbtree.go:163-170 *)
Fixpoint h_walk (fuel : nat) (h : nheap) (p : pheap) (leaf : nat) (f : bool) (cur : option nat) (rep : calls) : option calls :=
  match cur with
  | None => Some rep
  | Some x =>
    match fuel with
    | O => None
    | S fuel =>
      let r := th_arb (pth p) x in
      if (t_b r =? leaf)%nat then
        let? ao := n_obj (nd h (t_a r)) in
        let? lo := n_obj (nd h leaf) in
        if f then h_walk fuel h p leaf f (th_next (t_tb r)) (rep ++ [(ao, lo)]) else None
      else h_walk fuel h p leaf f (th_next (t_ta r)) rep
    end
  end.
(** bbtree.go:146-172; [stmp] is the master tree's stamp *)
Definition h_mark_leaf (h : nheap) (sroot : option nat) (f : bool) (stmp : nat) (leaf : nat) (acc : pheap * calls) : option (pheap * calls) :=
  if (n_stamp (nd h leaf) =? stmp)%nat then
    let? acc := match sroot with Some s => h_mlq (nfresh h) h s leaf false f acc | None => Some acc end in
    h_up (nfresh h) h leaf leaf f acc
  else
    let? rep := h_walk (pfresh (fst acc)) h (fst acc) leaf f (th_list (pth (fst acc)) leaf) (snd acc) in
    Some (fst acc, rep).
(** bbtree.go:358-365 *)
Fixpoint h_mark_subtree (fuel : nat) (h : nheap) (sroot : option nat) (f : bool) (stmp : nat) (sub : nat) (acc : pheap * calls) : option (pheap * calls) :=
  match fuel with
  | O => None
  | S fuel =>
    match n_obj (nd h sub) with
    | Some _ => h_mark_leaf h sroot f stmp sub acc
    | None =>
      match n_a (nd h sub), n_b (nd h sub) with
      | Some a, Some b => let? acc := h_mark_subtree fuel h sroot f stmp a acc in h_mark_subtree fuel h sroot f stmp b acc
      | _, _ => None
      end
    end
  end.

(** ** The two trees of a space *)
(** bbtree.go:58-69: root, leaves, and the stamp of the master (dynamic) tree *)
Record hidx := mkHI { hn : nheap; hp : pheap; hroot : bool -> option nat; hleaf : bool -> nat -> option nat; hstamp : nat }.
(** bbtree.go:75-81 *)
Definition hi_new : hidx := mkHI nh_new ph_new (fun _ => None) (fun _ _ => None) 0.
Definition set_hn (s : hidx) (h : nheap) : hidx := mkHI h (hp s) (hroot s) (hleaf s) (hstamp s).
Definition set_hp (s : hidx) (p : pheap) : hidx := mkHI (hn s) p (hroot s) (hleaf s) (hstamp s).
Definition set_root (s : hidx) (d : bool) (r : option nat) : hidx := mkHI (hn s) (hp s) (put2 (hroot s) d r) (hleaf s) (hstamp s).
Definition set_leaf (s : hidx) (d : bool) (id : nat) (v : option nat) : hidx :=
  mkHI (hn s) (hp s) (hroot s) (put2 (hleaf s) d (put (hleaf s d) id v)) (hstamp s).
(** bbtree.go:110-117 *)
Definition h_inc_stamp (s : hidx) : hidx := mkHI (hn s) (hp s) (hroot s) (hleaf s) (S (hstamp s)).

(** bbtree.go:130-144: the static tree marks with a nil query function, the dynamic one with VoidQueryFunc *)
Definition h_add_pairs (d : bool) (s : hidx) (leaf : nat) : option hidx :=
  if d then
    let? (p, _) := h_mark_leaf (hn s) (hroot s false) true (hstamp s) leaf (hp s, []) in Some (set_hp s p)
  else
    match hroot s true with
    | Some r => let? (p, _) := h_mlq (nfresh (hn s)) (hn s) r leaf true false (hp s, []) in Some (set_hp s p)
    | None => Some s
    end.

(** bbtree.go:97-108; hashset.go: Insert returns the leaf if the object is there already *)
Definition hx_insert (d : bool) (e : env T) (s : hidx) (id : nat) : option hidx :=
  let '(s, x) := match hleaf s d id with
                 | Some x => (s, x)
                 | None => let '(h, x) := h_new_leaf (hn s) d id (get_bb d e id) in
                           (set_leaf (set_hp (set_hn s h) (with_th (hp s) (set_list (pth (hp s)) x None))) d id (Some x), x)
                 end in
  let? (h, r) := h_subtree_insert (nfresh (hn s)) (hn s) d (hroot s d) x in
  let s := set_root (set_hn s h) d (Some r) in
  let s := set_hn s (set_stamp (hn s) x (hstamp s)) in
  let? s := h_add_pairs d s x in
  Some (h_inc_stamp s).
(** bbtree.go:310-316 *)
Definition hx_remove (d : bool) (s : hidx) (id : nat) : option hidx :=
  let? x := hleaf s d id in
  let s := set_leaf s d id None in
  let? (h, r) := h_subtree_remove (hn s) d (hroot s d) x in
  let s := set_root (set_hn s h) d r in
  let? p := h_pairs_clear (hp s) x in
  let s := set_hp s p in
  Some (set_hn s (recycle_node (hn s) d x)).
(** bbtree.go:367-383: the new state, and whether the leaf moved *)
Definition h_leaf_update (d : bool) (e : env T) (s : hidx) (x : nat) : option (hidx * bool) :=
  let? id := n_obj (nd (hn s) x) in
  if bb_contains (n_bb (nd (hn s) x)) (cur e id) then Some (s, false)
  else
    let h := set_nbb (hn s) x (get_bb d e id) in
    let? (h, r) := h_subtree_remove h d (hroot s d) x in
    let? (h, r) := h_subtree_insert (nfresh h) h d r x in
    let s := set_root (set_hn s h) d (Some r) in
    let? p := h_pairs_clear (hp s) x in
    let s := set_hp s p in
    Some (set_hn s (set_stamp (hn s) x (hstamp s)), true).
(** bbtree.go:322-330 *)
Definition hx_reindex_object (d : bool) (e : env T) (s : hidx) (id : nat) : option hidx :=
  match hleaf s d id with
  | None => Some s
  | Some x =>
    let? (s, moved) := h_leaf_update d e s x in
    let? s := if moved then h_add_pairs d s x else Some s in
    Some (h_inc_stamp s)
  end.
(** bbtree.go:338-340, leaves.Each in the order [order] *)
Fixpoint h_update_all (e : env T) (s : hidx) (order : list nat) : option hidx :=
  match order with
  | [] => Some s
  | id :: order =>
    match hleaf s true id with
    | None => h_update_all e s order
    | Some x => let? (s, _) := h_leaf_update true e s x in h_update_all e s order
    end
  end.
(** bbtree.go:332-356; CollideStatic as in Model/BBTree.v *)
Definition hx_reindex_query (e : env T) (order : list nat) (s : hidx) : option (hidx * calls) :=
  match hroot s true with
  | None => Some (s, [])
  | Some _ =>
    let? s := h_update_all e s order in
    let? r := hroot s true in
    let? (p, rep) := h_mark_subtree (nfresh (hn s)) (hn s) (hroot s false) true (hstamp s) r (hp s, []) in
    Some (h_inc_stamp (set_hp s p), rep)
  end.
(** bbtree.go:409-418 *)
Fixpoint h_subtree_query (fuel : nat) (h : nheap) (sub : nat) (q : B) : option (list nat) :=
  match fuel with
  | O => None
  | S fuel =>
    if bb_intersects (n_bb (nd h sub)) q then
      match n_obj (nd h sub) with
      | Some o => Some [o]
      | None =>
        match n_a (nd h sub), n_b (nd h sub) with
        | Some a, Some b => let? l := h_subtree_query fuel h a q in let? r := h_subtree_query fuel h b q in Some (l ++ r)
        | _, _ => None
        end
      end
    else Some []
  end.
(** bbtree.go:403-407 *)
Definition hx_query (s : hidx) (d : bool) (q : B) : option (list nat) :=
  match hroot s d with None => Some [] | Some r => h_subtree_query (nfresh (hn s)) (hn s) r q end.
(** bbtree.go:420-445 *)
Fixpoint h_seg_query {S : Type} (fuel : nat) (h : nheap) (f : S -> nat -> S * T) (sub : nat) (a b : Vec T) (st : S) (t_exit : T) : option (S * T) :=
  match fuel with
  | O => None
  | Datatypes.S fuel =>
    match n_obj (nd h sub) with
    | Some o => Some (f st o)
    | None =>
      match n_a (nd h sub), n_b (nd h sub) with
      | Some ca, Some cb =>
        let tA := bb_segment_query (n_bb (nd h ca)) a b in
        let tB := bb_segment_query (n_bb (nd h cb)) a b in
        let visit c tc st t_exit :=
          if tc <? t_exit then
            let? (st', r) := h_seg_query fuel h f c a b st t_exit in Some (st', nmin t_exit r)
          else Some (st, t_exit) in
        if tA <? tB then
          let? (st1, e1) := visit ca tA st t_exit in visit cb tB st1 e1
        else
          let? (st1, e1) := visit cb tB st t_exit in visit ca tA st1 e1
      | _, _ => None
      end
    end
  end.
(** bbtree.go:447-452 *)
Definition hx_segment_query {S : Type} (s : hidx) (d : bool) (f : S -> nat -> S * T) (a b : Vec T) (st : S) (t_exit : T) : option S :=
  match hroot s d with
  | None => Some st
  | Some r => let? (st, _) := h_seg_query (nfresh (hn s)) (hn s) f r a b st t_exit in Some st
  end.
End Heap.
Arguments hnode T : clear implicits.
Arguments nheap T : clear implicits.
Arguments hidx T : clear implicits.
