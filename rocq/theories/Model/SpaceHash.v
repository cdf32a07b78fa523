(** spacehash.go: the spatial hash.
    A handle is a reference (a number) into [heap]; a chain of bins is the list of the handles in it.  The recycling of the bin structs themselves is not modelled (a bin is only ever reached from one chain).
    The handle set is a set of handles searched by object: HashSet (C09) is what it is made of; the order in which it is iterated is given as an argument.
    sync.Pool may return any handle that was put in it, or a new one: the handle an insertion gets is an argument. *)
From Coq Require Import ZArith NArith Bool List Arith.
From Verif Require Import Num.
From Verif.Model Require Import Vector BB.
Import ListNotations.
Local Open Scope num_scope.

Section SpaceHash.
Context {T : Type} `{Num T}.

(** spacehash.go:345-349 *)
Record handle := mkHandle { h_obj : option nat; h_retains : Z; h_stamp : nat }.
(** spacehash.go:8-21; pool: the handles that were put in the pool and not taken out *)
Record hash := mkHash { numcells : nat; celldim : T; table : nat -> list nat; handles : list nat; heap : nat -> handle; pool : list nat; hstamp : nat }.
Definition with_table (s : hash) t := mkHash (numcells s) (celldim s) t (handles s) (heap s) (pool s) (hstamp s).
Definition with_heap (s : hash) m := mkHash (numcells s) (celldim s) (table s) (handles s) m (pool s) (hstamp s).
Definition with_pool (s : hash) p := mkHash (numcells s) (celldim s) (table s) (handles s) (heap s) p (hstamp s).
Definition with_handles (s : hash) l := mkHash (numcells s) (celldim s) (table s) l (heap s) (pool s) (hstamp s).
Definition tick (s : hash) := mkHash (numcells s) (celldim s) (table s) (handles s) (heap s) (pool s) (S (hstamp s)).
Definition upd {A} (m : nat -> A) (i : nat) (x : A) : nat -> A := fun j => if Nat.eqb j i then x else m j.
Definition set_obj (s : hash) h o := with_heap s (upd (heap s) h (mkHandle o (h_retains (heap s h)) (h_stamp (heap s h)))).
Definition set_retains (s : hash) h r := with_heap s (upd (heap s) h (mkHandle (h_obj (heap s h)) r (h_stamp (heap s h)))).
Definition set_stamp (s : hash) h t := with_heap s (upd (heap s) h (mkHandle (h_obj (heap s h)) (h_retains (heap s h)) t)).
Definition set_cell (s : hash) i l := with_table s (upd (table s) i l).
(** spacehash.go:23-40 (the pool's spare handles are not numbered) *)
Definition new_hash (dim : T) (n : nat) : hash := mkHash n dim (fun _ => []) [] (fun _ => mkHandle None 0 0) [] 1.

(** spacehash.go:157-163 *)
Definition gfloor (f : T) : Z := let i := ntrunc f in if (f <? nzero) && negb (nlit i 1 =? f) then (i - 1)%Z else i.
(** spacehash.go:341-343 with HashValue = uint64 *)
Definition to_u64 (i : Z) : N := Z.to_N (i mod 2 ^ 64).
Definition hash_func (x y n : N) : N := ((N.lxor ((x * 1640531513) mod 2 ^ 64) ((y * 2654435789) mod 2 ^ 64)) mod n)%N.
Definition slot (n : nat) (c : Z * Z) : nat := N.to_nat (hash_func (to_u64 (fst c)) (to_u64 (snd c)) (N.of_nat n)).
(** the integers from [lo] to [hi] *)
Definition zrange (lo hi : Z) : list Z := map (fun k => (lo + Z.of_nat k)%Z) (seq 0 (Z.to_nat (hi - lo + 1))).
(** the double loops of spacehash.go:45-54, 174-182, 206-216 *)
Definition cells (dim : T) (x : BB T) : list (Z * Z) :=
  let l := gfloor (bl x / dim) in let r := gfloor (br x / dim) in let b := gfloor (bb x / dim) in let t := gfloor (bt x / dim) in
  flat_map (fun i => map (fun j => (i, j)) (zrange b t)) (zrange l r).
Definition slots (s : hash) (x : BB T) : list nat := map (slot (numcells s)) (cells (celldim s) x).

(** spacehash.go:357-359 *)
Definition retain (s : hash) (h : nat) : hash := set_retains s h (h_retains (heap s h) + 1).
(** spacehash.go:361-366 *)
Definition release (s : hash) (h : nat) : hash :=
  let r := (h_retains (heap s h) - 1)%Z in
  let s := set_retains s h r in
  if (r =? 0)%Z then with_pool s (h :: pool s) else s.
(** spacehash.go:56-65: containsHandle, or a new bin in front *)
Definition hash_in (s : hash) (h : nat) (i : nat) : hash := if existsb (Nat.eqb h) (table s i) then s else let s := retain s h in set_cell s i (h :: table s i).
(** spacehash.go:42-68 *)
Definition hash_handle (s : hash) (h : nat) (x : BB T) : hash := fold_left (fun s i => hash_in s h i) (slots s x) s.
(** the search of the handle set by object *)
Definition holds (s : hash) (o : nat) (h : nat) : bool := match h_obj (heap s h) with Some o' => Nat.eqb o' o | None => false end.
Definition find_handle (s : hash) (o : nat) : option nat := find (holds s o) (handles s).
(** spacehash.go:70-83 *)
Definition sh_count (s : hash) : nat := length (handles s).
Definition sh_contains (s : hash) (o : nat) : bool := match find_handle s o with Some _ => true | None => false end.
(** spacehash.go:84-92; [g]: what the pool returns *)
Definition sh_insert (s : hash) (o : nat) (g : nat) (x : BB T) : hash :=
  match find_handle s o with
  | Some h => hash_handle s h x
  | None =>
    let s := with_pool s (remove Nat.eq_dec g (pool s)) in
    let s := with_heap s (upd (heap s) g (mkHandle (Some o) 0 0)) in
    let s := retain s g in
    let s := with_handles s (g :: handles s) in
    hash_handle s g x
  end.
(** spacehash.go:94-101 *)
Definition sh_remove (s : hash) (o : nat) : hash :=
  match find_handle s o with
  | None => s
  | Some h => release (set_obj (with_handles s (remove Nat.eq_dec h (handles s))) h None) h
  end.
(** spacehash.go:110-119 *)
Definition sh_reindex_object (s : hash) (o : nat) (g : nat) (x : BB T) : hash :=
  match find_handle s o with None => s | Some _ => sh_insert (sh_remove s o) o g x end.
(** spacehash.go:121-139: the chain without the handles whose object is gone *)
Fixpoint remove_orphaned (s : hash) (l : list nat) : hash * list nat :=
  match l with
  | [] => (s, [])
  | h :: l => match h_obj (heap s h) with
              | None => let '(s, l) := remove_orphaned (release s h) l in (s, l)
              | Some _ => let '(s, l) := remove_orphaned s l in (s, h :: l)
              end
  end.
(** spacehash.go:141-155: one pass of the loop; true: an orphan was met *)
Fixpoint walk (s : hash) (l : list nat) (obj : option nat) (out : list nat) : hash * list nat * bool :=
  match l with
  | [] => (s, out, false)
  | h :: l =>
    let hd := heap s h in
    if (Nat.eqb (h_stamp hd) (hstamp s)) || (match obj, h_obj hd with Some a, Some b => Nat.eqb a b | _, _ => false end) then walk s l obj out
    else match h_obj hd with
         | Some o => walk (set_stamp s h (hstamp s)) l obj (out ++ [o])
         | None => (s, out, true)
         end
  end.
(** the restart: after the removal no handle of the chain is without object, so that there is no third pass (lemma no_third_pass) *)
Definition query_helper (s : hash) (l : list nat) (obj : option nat) (out : list nat) : hash * list nat * list nat :=
  let '(s, out, again) := walk s l obj out in
  if again then
    let '(s, l) := remove_orphaned s l in
    let '(s, out, _) := walk s l obj out in (s, l, out)
  else (s, l, out).
(** spacehash.go:206-222; the objects the callback is called with *)
Definition query_cell (obj : option nat) (st : hash * list nat) (i : nat) : hash * list nat :=
  let '(s, out) := st in let '(s, l, out) := query_helper s (table s i) obj out in (set_cell s i l, out).
Definition sh_query (s : hash) (obj : option nat) (x : BB T) : hash * list nat :=
  let '(s, out) := fold_left (query_cell obj) (slots s x) (s, []) in (tick s, out).
(** spacehash.go:372-391 *)
Definition clear_cell (s : hash) (i : nat) : hash := set_cell (fold_left release (table s i) s) i [].
Definition clear_table (s : hash) : hash := fold_left clear_cell (seq 0 (numcells s)) s.
(** spacehash.go:103-108 *)
Definition sh_reindex (s : hash) : hash := clear_table s.
(** spacehash.go:165-204, one handle; [calls]: the pairs the callback is called with *)
Definition rehash_cell (h : nat) (o : nat) (st : hash * list nat) (i : nat) : hash * list nat :=
  let '(s, out) := st in
  if existsb (Nat.eqb h) (table s i) then st
  else let s := retain s h in
       let '(s, l, out) := query_helper s (table s i) (Some o) out in
       (set_cell s i (h :: l), out).
Definition rehash_handle (box : nat -> BB T) (st : hash * list (nat * nat)) (o : nat) : hash * list (nat * nat) :=
  let '(s, calls) := st in
  match find_handle s o with
  | None => st
  | Some h => let '(s, out) := fold_left (rehash_cell h o) (slots s (box o)) (s, []) in (tick s, calls ++ map (pair o) out)
  end.
(** spacehash.go:165-202: [order] are the objects in the order in which the handle set is iterated *)
Definition sh_reindex_query (box : nat -> BB T) (order : list nat) (s : hash) : hash * list (nat * nat) := fold_left (rehash_handle box) order (clear_table s, []).
(** spatialindex.go:57-63: the dynamic objects in the order the dynamic index is iterated, each queried in the static index *)
Definition sh_collide_static (box : nat -> BB T) (objs : list nat) (st : hash) : hash * list (nat * nat) :=
  if Nat.eqb (sh_count st) 0 then (st, []) else
  fold_left (fun a o => let '(s, calls) := a in let '(s, out) := sh_query s (Some o) (box o) in (s, calls ++ map (pair o) out)) objs (st, []).

(** spacehash.go:224-243 *)
Fixpoint seg_walk {S : Type} (f : S -> nat -> S * T) (s : hash) (l : list nat) (st : S) (t : T) : hash * S * T * bool :=
  match l with
  | [] => (s, st, t, false)
  | h :: l =>
    let hd := heap s h in
    if Nat.eqb (h_stamp hd) (hstamp s) then seg_walk f s l st t
    else match h_obj hd with
         | Some o => let '(st, r) := f st o in seg_walk f (set_stamp s h (hstamp s)) l st (nmin t r)
         | None => (s, st, t, true)
         end
  end.
Definition seg_helper {S : Type} (f : S -> nat -> S * T) (s : hash) (i : nat) (st : S) : hash * S * T :=
  let l := table s i in
  let '(s, st, t, again) := seg_walk f s l st none_ in
  if again then
    let '(s, l) := remove_orphaned s l in
    let '(s, st, t, _) := seg_walk f s l st t in (set_cell s i l, st, t)
  else (set_cell s i l, st, t).
(** math.Floor, for arguments that fit an int64 *)
Definition mfloor (f : T) : T := nlit (gfloor f) 1.
(** spacehash.go:246-318: the walk along the grid.  [fuel] bounds the number of cells. *)
Definition axis (a b : T) : Z * T * T :=
  let '(inc, temp) := if a <? b then (1%Z, mfloor (a + none_) - a) else ((-1)%Z, a - mfloor a) in
  let d := nabs (b - a) in
  let dt := if negb (d =? nzero) then none_ / d else ninf in
  let next := if negb (temp =? nzero) then temp * dt else dt in
  (inc, dt, next).
Fixpoint grid_walk {S : Type} (f : S -> nat -> S * T) (fuel : nat) (cx cy xi yi : Z) (dtx dty nh nv : T) (s : hash) (st : S) (t t_exit : T) : option (hash * S) :=
  match fuel with
  | O => None
  | Datatypes.S k =>
    if t <? t_exit then
      let '(s, st, r) := seg_helper f s (slot (numcells s) (cx, cy)) st in
      let t_exit := nmin t_exit r in
      if nv <? nh then grid_walk f k cx (cy + yi) xi yi dtx dty nh (nv + dty) s st nv t_exit
      else grid_walk f k (cx + xi) cy xi yi dtx dty (nh + dtx) nv s st nh t_exit
    else Some (tick s, st)
  end.
Definition sh_segment_query {S : Type} (f : S -> nat -> S * T) (fuel : nat) (s : hash) (a b : Vec T) (st : S) (t_exit : T) : option (hash * S) :=
  let a := vmult a (none_ / celldim s) in
  let b := vmult b (none_ / celldim s) in
  let '(xi, dtx, nh) := axis (vx a) (vx b) in
  let '(yi, dty, nv) := axis (vy a) (vy b) in
  grid_walk f fuel (gfloor (vx a)) (gfloor (vy a)) xi yi dtx dty nh nv s st nzero t_exit.
End SpaceHash.
Arguments hash T : clear implicits.
