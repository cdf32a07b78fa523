(** bbtree.go, spatialindex.go: the dynamic bounding-box tree with its pair cache, on values.
    Model/BBTreeHeap.v is the same code with its pointers, and is proved to do the same (C117).

    Simplifications:
    - tree nodes are an inductive type, parent pointers are implicit; walking from a leaf to the
      root is the list of siblings on the path ([path]);
    - an object is a [nat]; the leaf of an object is found through the leaf hash set, here by its
      identity (the hash set itself is Model/HashSet.v);
    - the per-leaf doubly linked pair lists are one list [pairs], newest first; the list of a leaf is
      the sublist of pairs mentioning it (both lists of a pair are extended at the head, bbtree.go:190-216);
    - stamps are unbounded naturals (Go: uint, one increment per operation);
    - collisionId (a warm-start hint) is dropped. *)
From Coq Require Import ZArith Bool List Arith.
From Verif Require Import Num.
From Verif.Model Require Import Vector BB.
Import ListNotations.
Local Open Scope num_scope.

Section BBTree.
Context {T : Type} `{Num T}.
Notation B := (BB T).

(** bbtree.go:7-24: a leaf node *)
Record leaf := mkLeaf { lid : nat; lbb : B; lstamp : nat }.
(** bbtree.go:7-19: an interior node has [obj == nil] and two children *)
Inductive tree := Leaf (l : leaf) | Node (b : B) (a c : tree).

Definition tbb (t : tree) : B := match t with Leaf l => lbb l | Node b _ _ => b end.
Fixpoint leaves (t : tree) : list leaf :=
  match t with Leaf l => [l] | Node _ a c => leaves a ++ leaves c end.
Definition oleaves (t : option tree) : list leaf := match t with None => [] | Some t => leaves t end.

(** What the outside world says about an object: its current box (bbfunc) and its body's velocity. *)
Record env := mkEnv { cur : nat -> B; vel : nat -> Vec T }.

(** bbtree.go:454-471 with [velocityFunc != nil] (the dynamic tree, space.go:101) *)
Definition fat_bb (x : B) (v : Vec T) : B :=
  let coef := nlit 1 10 in
  let dx := (br x - bl x) * coef in
  let dy := (bt x - bb x) * coef in
  let w := vmult v (nlit 1 10) in
  mkBB (bl x + nmin (- dx) (vx w)) (bb x + nmin (- dy) (vy w))
       (br x + nmax dx (vx w)) (bt x + nmax dy (vy w)).
(** bbtree.go:454-471; the static tree has no velocityFunc *)
Definition get_bb (dynamic : bool) (e : env) (id : nat) : B :=
  if dynamic then fat_bb (cur e id) (vel e id) else cur e id.

(** bbtree.go:473-482 *)
Definition new_node (a c : tree) : tree := Node (bb_merge (tbb a) (tbb c)) a c.

(** bbtree.go:250-258: whether the new leaf goes to child b *)
Definition go_b (a c : tree) (lb : B) : bool :=
  let cost_a := bb_area (tbb c) + bb_merged_area (tbb a) lb in
  let cost_b := bb_area (tbb a) + bb_merged_area (tbb c) lb in
  if cost_a =? cost_b then bb_proximity (tbb c) lb <? bb_proximity (tbb a) lb
  else cost_b <? cost_a.

(** bbtree.go:242-266 on a non-nil subtree *)
Fixpoint subtree_insert (t : tree) (l : leaf) : tree :=
  match t with
  | Leaf _ => new_node (Leaf l) t
  | Node b a c =>
    if go_b a c (lbb l) then Node (bb_merge b (lbb l)) a (subtree_insert c l)
    else Node (bb_merge b (lbb l)) (subtree_insert a l) c
  end.
(** bbtree.go:242-245: nil subtree *)
Definition root_insert (t : option tree) (l : leaf) : option tree :=
  Some (match t with None => Leaf l | Some t => subtree_insert t l end).

(** bbtree.go:268-297: SubtreeRemove and ReplaceChild.  [None]: the leaf is not in this subtree;
    [Some None]: the subtree was the leaf; [Some (Some t)]: what is left. *)
Fixpoint subtree_remove (t : tree) (id : nat) : option (option tree) :=
  match t with
  | Leaf l => if (lid l =? id)%nat then Some None else None
  | Node b a c =>
    match subtree_remove a id with
    | Some None => Some (Some c)
    | Some (Some a') => Some (Some (new_node a' c))
    | None =>
      match subtree_remove c id with
      | Some None => Some (Some a)
      | Some (Some c') => Some (Some (new_node a c'))
      | None => None
      end
    end
  end.
Definition root_remove (t : option tree) (id : nat) : option tree :=
  match t with
  | None => None
  | Some t => match subtree_remove t id with Some r => r | None => Some t end
  end.

Definition find_leaf (t : option tree) (id : nat) : option leaf :=
  find (fun l => (lid l =? id)%nat) (oleaves t).

(** bbtree.go:159-165: siblings met when walking from the leaf to the root, nearest first;
    the flag is the [left] argument of MarkLeafQuery *)
Fixpoint path (t : tree) (id : nat) : option (list (tree * bool)) :=
  match t with
  | Leaf l => if (lid l =? id)%nat then Some [] else None
  | Node _ a c =>
    match path a id with
    | Some p => Some (p ++ [(c, true)])
    | None => match path c id with Some p => Some (p ++ [(a, false)]) | None => None end
    end
  end.

(** What marking does, in order: insert a pair in the cache, or call the query function. *)
Inductive event := Ins (a b : nat) | Rep (a b : nat).

(** bbtree.go:173-189 *)
Fixpoint mark_leaf_query (sub : tree) (l : leaf) (left : bool) : list event :=
  if bb_intersects (lbb l) (tbb sub) then
    match sub with
    | Leaf s =>
      if left then [Ins (lid l) (lid s)]
      else (if (lstamp s <? lstamp l)%nat then [Ins (lid s) (lid l)] else []) ++ [Rep (lid l) (lid s)]
    | Node _ a c => mark_leaf_query a l left ++ mark_leaf_query c l left
    end
  else [].

(** the cache: (a, b) pairs, newest first *)
Notation cache := (list (nat * nat)).
(** bbtree.go:190-216 *)
Definition pair_insert (p : cache) (e : event) : cache :=
  match e with Ins a b => (a, b) :: p | Rep _ _ => p end.
Definition run_events (p : cache) (es : list event) : cache := fold_left pair_insert es p.
Definition reports (es : list event) : cache :=
  flat_map (fun e => match e with Rep a b => [(a, b)] | Ins _ _ => [] end) es.
Definition touches (id : nat) (p : nat * nat) : bool := (fst p =? id)%nat || (snd p =? id)%nat.
(** bbtree.go:384-401 *)
Definition pairs_clear (p : cache) (id : nat) : cache := filter (fun q => negb (touches id q)) p.

(** bbtree.go:146-172.  For an unmoved leaf the cached pairs mentioning it are walked and the
    query function is called when the leaf is the pair's [b]. *)
Definition mark_leaf (dyn : tree) (static : option tree) (stamp : nat) (p : cache) (l : leaf) : list event :=
  if (lstamp l =? stamp)%nat then
    (match static with Some s => mark_leaf_query s l false | None => [] end) ++
    (match path dyn (lid l) with
     | Some sibs => flat_map (fun sb => mark_leaf_query (fst sb) l (snd sb)) sibs
     | None => [] end)
  else
    flat_map (fun q => if (snd q =? lid l)%nat then [Rep (fst q) (lid l)] else [])
      (filter (touches (lid l)) p).

Record index := mkIdx { dyn : option tree; sta : option tree; stamp : nat; pairs : cache }.

(** bbtree.go:75-81, two empty trees sharing the dynamic tree's stamp *)
Definition empty_index : index := mkIdx None None 0 [].

(** bbtree.go:130-144 *)
Definition leaf_add_pairs (isdyn : bool) (s : index) (l : leaf) : cache :=
  if isdyn then
    match dyn s with
    | Some d => run_events (pairs s) (mark_leaf d (sta s) (stamp s) (pairs s) l)
    | None => pairs s
    end
  else
    match dyn s with
    | Some d => run_events (pairs s) (mark_leaf_query d l true)
    | None => pairs s
    end.

Definition get_tree (isdyn : bool) (s : index) : option tree := if isdyn then dyn s else sta s.
Definition set_tree (isdyn : bool) (s : index) (t : option tree) : index :=
  if isdyn then mkIdx t (sta s) (stamp s) (pairs s) else mkIdx (dyn s) t (stamp s) (pairs s).
Definition set_pairs (s : index) (p : cache) : index := mkIdx (dyn s) (sta s) (stamp s) p.
(** bbtree.go:110-117 *)
Definition inc_stamp (s : index) : index := mkIdx (dyn s) (sta s) (S (stamp s)) (pairs s).

(** bbtree.go:97-108 (and NewLeaf, 494-503).  The leaf is stamped before it is marked. *)
Definition ix_insert (isdyn : bool) (e : env) (s : index) (id : nat) : index :=
  let l := mkLeaf id (get_bb isdyn e id) (stamp s) in
  let s1 := set_tree isdyn s (root_insert (get_tree isdyn s) l) in
  inc_stamp (set_pairs s1 (leaf_add_pairs isdyn s1 l)).

(** bbtree.go:310-316 *)
Definition ix_remove (isdyn : bool) (s : index) (id : nat) : index :=
  let s1 := set_tree isdyn s (root_remove (get_tree isdyn s) id) in
  set_pairs s1 (pairs_clear (pairs s1) id).

(** bbtree.go:367-383 *)
Definition leaf_update (isdyn : bool) (e : env) (s : index) (id : nat) : index * option leaf :=
  match find_leaf (get_tree isdyn s) id with
  | None => (s, None)
  | Some l =>
    if bb_contains (lbb l) (cur e id) then (s, None)
    else
      let l' := mkLeaf id (get_bb isdyn e id) (stamp s) in
      let s1 := set_tree isdyn s (root_insert (root_remove (get_tree isdyn s) id) l') in
      (set_pairs s1 (pairs_clear (pairs s1) id), Some l')
  end.

(** bbtree.go:322-330 *)
Definition ix_reindex_object (isdyn : bool) (e : env) (s : index) (id : nat) : index :=
  match find_leaf (get_tree isdyn s) id with
  | None => s
  | Some _ =>
    let '(s1, moved) := leaf_update isdyn e s id in
    inc_stamp (match moved with Some l => set_pairs s1 (leaf_add_pairs isdyn s1 l) | None => s1 end)
  end.

(** bbtree.go:358-365: leaves are marked in tree order; each leaf sees the pairs inserted so far *)
Definition mark_step (d : tree) (st : option tree) (stmp : nat) (acc : cache * list (nat * nat)) (l : leaf)
  : cache * list (nat * nat) :=
  let es := mark_leaf d st stmp (fst acc) l in
  (run_events (fst acc) es, snd acc ++ reports es).
Definition mark_subtree (d : tree) (st : option tree) (stmp : nat) (p : cache) : cache * list (nat * nat) :=
  fold_left (mark_step d st stmp) (leaves d) (p, []).

(** bbtree.go:332-356.  [order] is the order in which the leaf hash set is iterated.
    CollideStatic (346-350) runs only when the static tree is empty, where it does nothing
    (spatialindex.go:60-66: Count() > 0 fails). *)
Definition ix_reindex_query (e : env) (order : list nat) (s : index) : index * list (nat * nat) :=
  match dyn s with
  | None => (s, [])
  | Some _ =>
    let s1 := fold_left (fun s id => fst (leaf_update true e s id)) order s in
    match dyn s1 with
    | None => (s1, [])
    | Some d =>
      let '(p, rep) := mark_subtree d (sta s1) (stamp s1) (pairs s1) in
      (inc_stamp (set_pairs s1 p), rep)
    end
  end.

(** bbtree.go:403-418: the objects passed to the callback, in order *)
Fixpoint subtree_query (t : tree) (q : B) : list nat :=
  if bb_intersects (tbb t) q then
    match t with
    | Leaf l => [lid l]
    | Node _ a c => subtree_query a q ++ subtree_query c q
    end
  else [].
Definition ix_query (t : option tree) (q : B) : list nat :=
  match t with None => [] | Some t => subtree_query t q end.

(** bbtree.go:420-445.  [f] is the callback with the state it mutates; it returns the new exit fraction. *)
Fixpoint subtree_segment_query {S : Type} (f : S -> nat -> S * T) (t : tree) (a b : Vec T) (st : S) (t_exit : T) : S * T :=
  match t with
  | Leaf l => f st (lid l)
  | Node _ ca cb =>
    let tA := bb_segment_query (tbb ca) a b in
    let tB := bb_segment_query (tbb cb) a b in
    let visit c tc st t_exit :=
      if tc <? t_exit then
        let '(st', r) := subtree_segment_query f c a b st t_exit in (st', nmin t_exit r)
      else (st, t_exit) in
    if tA <? tB then
      let '(st1, e1) := visit ca tA st t_exit in visit cb tB st1 e1
    else
      let '(st1, e1) := visit cb tB st t_exit in visit ca tA st1 e1
  end.
(** bbtree.go:447-452 *)
Definition ix_segment_query {S : Type} (f : S -> nat -> S * T) (t : option tree) (a b : Vec T) (st : S) (t_exit : T) : S :=
  match t with None => st | Some t => fst (subtree_segment_query f t a b st t_exit) end.
End BBTree.
Arguments leaf T : clear implicits.
Arguments tree T : clear implicits.
Arguments env T : clear implicits.
Arguments index T : clear implicits.
