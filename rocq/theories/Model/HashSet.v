(** The hash set (hashset.go) at the level of pointers: bins live in a heap, a table slot or a
    bin's [next] field holds a bin's address or nil.

    Simplifications: the size and entry counters are unbounded (Go: uint, 64 bits); Go's garbage collector is
    "allocate a new address".  Walks along a chain carry fuel, the number of bins ever allocated: running out
    of it means that the Go loop would not end, and gives [None] as does a Go panic. *)
From Coq Require Import List Arith NArith Bool.
Import ListNotations.

Record Bin (U : Type) := mkBin { bin_elt : option U; bin_hash : N; bin_next : option nat }.
Arguments mkBin {U}. Arguments bin_elt {U}. Arguments bin_hash {U}. Arguments bin_next {U}.
(** hashset.go:13-21 *)
Record HSet (U : Type) := mkHS {
  hs_entries : N; hs_size : N; hs_table : N -> option nat; hs_pooled : option nat;
  hs_heap : nat -> Bin U; hs_fresh : nat (* next address of the allocator *) }.
Arguments mkHS {U}. Arguments hs_entries {U}. Arguments hs_size {U}. Arguments hs_table {U}. Arguments hs_pooled {U}.
Arguments hs_heap {U}. Arguments hs_fresh {U}.

(** everything.go:15 *)
Definition POOLED_BUFFER_SIZE : nat := 1024.
(** hashset.go:190-221 *)
Definition primes : list N := [5; 13; 23; 47; 97; 193; 389; 769; 1543; 3079; 6151; 12289; 24593; 49157; 98317; 196613;
  393241; 786433; 1572869; 3145739; 6291469; 12582917; 25165843; 50331653; 100663319; 201326611; 402653189; 805306457;
  1610612741; 0]%N.
(** hashset.go:223-229; [None]: index out of range *)
Fixpoint next_prime_in (l : list N) (n : N) : option N :=
  match l with [] => None | p :: l => if (p <? n)%N then next_prime_in l n else Some p end.
Definition next_prime (n : N) : option N := next_prime_in primes n.

Section HashSet.
Context {T U : Type}.
Variable isEqual : T -> U -> bool.
Notation heap := (nat -> Bin U).

Definition upd {A} (h : nat -> A) (p : nat) (x : A) : nat -> A := fun q => if Nat.eqb q p then x else h q.
Definition updN {A} (h : N -> A) (i : N) (x : A) : N -> A := fun k => if N.eqb k i then x else h k.
Definition set_next (h : heap) (p : nat) (n : option nat) : heap := upd h p (mkBin (bin_elt (h p)) (bin_hash (h p)) n).

(** hashset.go:24-31 *)
Definition hs_new : HSet U :=
  mkHS 0 5 (fun _ => None) None (fun _ => mkBin None 0 None) 0.

(** hashset.go:168-173 *)
Definition recycle (s : HSet U) (b : nat) : HSet U :=
  mkHS (hs_entries s) (hs_size s) (hs_table s) (Some b)
       (upd (hs_heap s) b (mkBin None (bin_hash (hs_heap s b)) (hs_pooled s))) (hs_fresh s).
(** &HashSetBin[U]{} *)
Definition alloc (s : HSet U) : nat * HSet U :=
  (hs_fresh s, mkHS (hs_entries s) (hs_size s) (hs_table s) (hs_pooled s) (upd (hs_heap s) (hs_fresh s) (mkBin None 0 None)) (S (hs_fresh s))).
(** hashset.go:183-185 *)
Fixpoint refill (k : nat) (s : HSet U) : HSet U :=
  match k with O => s | S k => let '(b, s) := alloc s in refill k (recycle s b) end.
(** hashset.go:175-188 *)
Definition get_unused (s : HSet U) : nat * HSet U :=
  match hs_pooled s with
  | Some b => (b, mkHS (hs_entries s) (hs_size s) (hs_table s) (bin_next (hs_heap s b)) (hs_heap s) (hs_fresh s))
  | None => alloc (refill POOLED_BUFFER_SIZE s)
  end.

(** hashset.go:37-49, the inner loop: move one chain to the new table *)
Fixpoint move_chain (fuel : nat) (newSize : N) (bin : option nat) (st : heap * (N -> option nat)) : option (heap * (N -> option nat)) :=
  match bin with
  | None => Some st
  | Some b =>
    match fuel with
    | O => None
    | S fuel => let '(h, t) := st in
      let next := bin_next (h b) in
      let idx := N.modulo (bin_hash (h b)) newSize in
      move_chain fuel newSize next (set_next h b (t idx), updN t idx (Some b))
    end
  end.
Definition indices (size : N) : list N := map N.of_nat (seq 0 (N.to_nat size)).
Fixpoint move_all (fuel : nat) (newSize : N) (old : N -> option nat) (is : list N) (st : heap * (N -> option nat)) :=
  match is with
  | [] => Some st
  | i :: is => match move_chain fuel newSize (old i) st with None => None | Some st => move_all fuel newSize old is st end
  end.
(** hashset.go:33-53 *)
Definition resize (s : HSet U) : option (HSet U) :=
  match next_prime (hs_size s + 1) with
  | None => None
  | Some newSize =>
    match move_all (hs_fresh s) newSize (hs_table s) (indices (hs_size s)) (hs_heap s, fun _ => None) with
    | None => None
    | Some (h, t) => Some (mkHS (hs_entries s) newSize t (hs_pooled s) h (hs_fresh s))
    end
  end.

(** hashset.go:65-68, 98-101 and 122-125: the search loop, with the address of the pointer that leads to the bin
    ([inl i]: table slot i, [inr b]: the next field of bin b) *)
Definition matches (h : heap) (b : nat) (ptr : T) : bool := match bin_elt (h b) with Some e => isEqual ptr e | None => false end.
Fixpoint search (fuel : nat) (h : heap) (ptr : T) (prev : N + nat) (bin : option nat) : option ((N + nat) * option nat) :=
  match bin with
  | None => Some (prev, None)
  | Some b =>
    if matches h b ptr then Some (prev, Some b) else
    match fuel with O => None | S fuel => search fuel h ptr (inr b) (bin_next (h b)) end
  end.
(** *prevPtr = next *)
Definition store (s : HSet U) (prev : N + nat) (next : option nat) : HSet U :=
  match prev with
  | inl i => mkHS (hs_entries s) (hs_size s) (updN (hs_table s) i next) (hs_pooled s) (hs_heap s) (hs_fresh s)
  | inr b => mkHS (hs_entries s) (hs_size s) (hs_table s) (hs_pooled s) (set_next (hs_heap s) b next) (hs_fresh s)
  end.
Definition set_entries (s : HSet U) (n : N) : HSet U :=
  mkHS n (hs_size s) (hs_table s) (hs_pooled s) (hs_heap s) (hs_fresh s).

(** hashset.go:61-88 *)
Definition hs_insert (s : HSet U) (hash : N) (ptr : T) (transform : T -> U) : option (U * HSet U) :=
  let idx := N.modulo hash (hs_size s) in
  match search (hs_fresh s) (hs_heap s) ptr (inl idx) (hs_table s idx) with
  | None => None
  | Some (_, Some b) => match bin_elt (hs_heap s b) with Some e => Some (e, s) | None => None end
  | Some (_, None) =>
    let '(b, s) := get_unused s in
    let e := transform ptr in
    let h := upd (hs_heap s) b (mkBin (Some e) hash (hs_table s idx)) in
    let s := mkHS (hs_entries s + 1) (hs_size s) (updN (hs_table s) idx (Some b)) (hs_pooled s) h (hs_fresh s) in
    if (hs_size s <=? hs_entries s)%N then match resize s with Some s => Some (e, s) | None => None end else Some (e, s)
  end.
(** hashset.go:91-117; the zero value is [None] *)
Definition hs_remove (s : HSet U) (hash : N) (ptr : T) : option (option U * HSet U) :=
  let idx := N.modulo hash (hs_size s) in
  match search (hs_fresh s) (hs_heap s) ptr (inl idx) (hs_table s idx) with
  | None => None
  | Some (prev, Some b) =>
    let elt := bin_elt (hs_heap s b) in
    let s := store s prev (bin_next (hs_heap s b)) in
    let s := set_entries s (hs_entries s - 1) in
    Some (elt, recycle s b)
  | Some (_, None) => Some (None, s)
  end.
(** hashset.go:120-132 *)
Definition hs_find (s : HSet U) (hash : N) (ptr : T) : option (option U) :=
  let idx := N.modulo hash (hs_size s) in
  match search (hs_fresh s) (hs_heap s) ptr (inl idx) (hs_table s idx) with
  | None => None
  | Some (_, Some b) => Some (bin_elt (hs_heap s b))
  | Some (_, None) => Some None
  end.
(** hashset.go:56-58 *)
Definition hs_count (s : HSet U) : N := hs_entries s.
(** hashset.go:135-143: the elements in the order of the calls (the callback does not touch the set) *)
Fixpoint walk (fuel : nat) (h : heap) (bin : option nat) : option (list U) :=
  match bin with
  | None => Some []
  | Some b =>
    match fuel with
    | O => None
    | S fuel => match bin_elt (h b), walk fuel h (bin_next (h b)) with Some e, Some l => Some (e :: l) | _, _ => None end
    end
  end.
Fixpoint walk_all (fuel : nat) (h : heap) (t : N -> option nat) (is : list N) : option (list U) :=
  match is with
  | [] => Some []
  | i :: is => match walk fuel h (t i), walk_all fuel h t is with Some l, Some r => Some (l ++ r) | _, _ => None end
  end.
Definition hs_each (s : HSet U) : option (list U) := walk_all (hs_fresh s) (hs_heap s) (hs_table s) (indices (hs_size s)).
(** hashset.go:146-166 *)
Fixpoint filter_chain (fuel : nat) (f : U -> bool) (prev : N + nat) (bin : option nat) (s : HSet U) : option (HSet U) :=
  match bin with
  | None => Some s
  | Some b =>
    match fuel with
    | O => None
    | S fuel =>
      let next := bin_next (hs_heap s b) in
      match bin_elt (hs_heap s b) with
      | None => None
      | Some e =>
        if f e then filter_chain fuel f (inr b) next s
        else let s := store s prev next in
             let s := set_entries s (hs_entries s - 1) in
             filter_chain fuel f prev next (recycle s b)
      end
    end
  end.
Fixpoint filter_all_chains (fuel : nat) (f : U -> bool) (is : list N) (s : HSet U) : option (HSet U) :=
  match is with
  | [] => Some s
  | i :: is => match filter_chain fuel f (inl i) (hs_table s i) s with None => None | Some s => filter_all_chains fuel f is s end
  end.
Definition hs_filter (s : HSet U) (f : U -> bool) : option (HSet U) :=
  filter_all_chains (hs_fresh s) f (indices (hs_size s)) s.
End HashSet.
