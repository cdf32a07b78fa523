(** Histories of a spatial hash, and what a user can say about them. *)
From Coq Require Import ZArith Bool List Arith Permutation.
From Verif Require Import Num.
From Verif.Model Require Import Vector BB SpaceHash.
Import ListNotations.
Local Open Scope nat_scope.
Section S.
Context {T : Type} {NT : Num T}.
(** One operation; [HMove]: objects have new boxes.  [g]: the handle sync.Pool gives out. *)
Inductive hop :=
| HMove (box : nat -> BB T)
| HInsert (o g : nat)
| HRemove (o : nat)
| HReindexObject (o g : nat)
| HReindexQuery (order : list nat)
| HQuery (obj : option nat) (q : BB T)
| HSegment (f : list nat -> nat -> list nat * T) (fuel : nat) (a b : Vec T) (t_exit : T).
Variables (dim : T) (n : nat) (box0 : nat -> BB T).
Notation history := (list hop).
Fixpoint box_now (h : history) : nat -> BB T := match h with [] => box0 | HMove b :: _ => b | _ :: h => box_now h end.
(** the objects in the index *)
Fixpoint hmembers (h : history) : list nat :=
  match h with
  | [] => []
  | HInsert o _ :: h => o :: hmembers h
  | HRemove o :: h => remove Nat.eq_dec o (hmembers h)
  | _ :: h => hmembers h
  end.
(** the box an object had when it was last indexed *)
Fixpoint hindexed (o : nat) (h : history) : BB T :=
  match h with
  | [] => box0 o
  | HInsert o' _ :: h => if o =? o' then box_now h o else hindexed o h
  | HReindexObject o' _ :: h => if o =? o' then box_now h o else hindexed o h
  | HReindexQuery _ :: h => box_now h o
  | _ :: h => hindexed o h
  end.
Definition happly (box : nat -> BB T) (s : hash T) (o : hop) : hash T :=
  match o with
  | HMove _ => s
  | HInsert o g => sh_insert s o g (box o)
  | HRemove o => sh_remove s o
  | HReindexObject o g => sh_reindex_object s o g (box o)
  | HReindexQuery order => fst (sh_reindex_query box order s)
  | HQuery obj q => fst (sh_query s obj q)
  | HSegment f fuel a b t => match sh_segment_query f fuel s a b [] t with Some (s', _) => s' | None => s end
  end.
Fixpoint hrun (h : history) : hash T := match h with [] => new_hash dim n | o :: h => happly (box_now h) (hrun h) o end.
(** some structure of the hash refers to handle [g] *)
Definition in_use (s : hash T) (g : nat) : Prop := In g (handles s) \/ exists i, In g (table s i).
(** sync.Pool returns a handle that was put in it, or a new one *)
Definition pool_may_return (s : hash T) (g : nat) : Prop := In g (pool s) \/ ~ in_use s g.
Definition hallowed (o : hop) (h : history) : Prop :=
  match o with
  | HMove _ | HQuery _ _ => True
  | HSegment f fuel a b t => sh_segment_query f fuel (hrun h) a b [] t <> None
  | HInsert o g => ~ In o (hmembers h) /\ pool_may_return (hrun h) g
  | HRemove o => In o (hmembers h)
  | HReindexObject o g => In o (hmembers h) /\ pool_may_return (sh_remove (hrun h) o) g
  | HReindexQuery order => Permutation order (hmembers h)
  end.
Fixpoint hvalid (h : history) : Prop := match h with [] => True | o :: h => hallowed o h /\ hvalid h end.
(** two boxes occupy a common slot of the hash *)
Definition share (x y : BB T) : Prop := exists i, In i (map (slot n) (cells dim x)) /\ In i (map (slot n) (cells dim y)).
End S.
Arguments hop T : clear implicits.
