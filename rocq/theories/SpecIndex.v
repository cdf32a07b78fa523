(** Histories of operations on the pair of spatial indexes of a space (dynamic tree and static tree),
    and what a user can say about a history without looking at the tree. *)
From Coq Require Import Bool List Arith.
From Verif Require Import Num Spec.
From Verif.Model Require Import Vector BB BBTree.
Import ListNotations.
Local Open Scope nat_scope.

Section S.
Context {T : Type} {NT : Num T}.

(** One operation.  [OMove e]: bodies move, so objects have new boxes and velocities.
    The boolean says which of the two trees (true: dynamic). *)
Inductive op :=
| OMove (e : env T)
| OInsert (d : bool) (id : nat)
| ORemove (d : bool) (id : nat)
| OReindexObject (d : bool) (id : nat)
| OReindexQuery (order : list nat).   (* the order in which the hash set of leaves is iterated *)

(** A history is a list of operations, newest first. *)
Notation history := (list op).
Variable e0 : env T.

(** Objects' boxes now. *)
Fixpoint env_now (h : history) : env T :=
  match h with [] => e0 | OMove e :: _ => e | _ :: h => env_now h end.

(** Objects inserted in tree [d] and not removed since. *)
Fixpoint members (d : bool) (h : history) : list nat :=
  match h with
  | [] => []
  | OInsert d' id :: h => if Bool.eqb d d' then id :: members d h else members d h
  | ORemove d' id :: h => if Bool.eqb d d' then remove Nat.eq_dec id (members d h) else members d h
  | _ :: h => members d h
  end.

(** The box object [id] had when it was last indexed in tree [d]. *)
Fixpoint indexed (d : bool) (id : nat) (h : history) : option (BB T) :=
  match h with
  | [] => None
  | OInsert d' id' :: h => if Bool.eqb d d' && (id =? id') then Some (cur (env_now h) id) else indexed d id h
  | OReindexObject d' id' :: h => if Bool.eqb d d' && (id =? id') then Some (cur (env_now h) id) else indexed d id h
  | OReindexQuery _ :: h => if d then Some (cur (env_now h) id) else indexed d id h
  | _ :: h => indexed d id h
  end.

(** The environment is usable: fattening a box never loses part of it (see C10_fat_box for when). *)
Definition env_ok (e : env T) : Prop := forall d id, subbox (cur e id) (get_bb d e id).

(** The preconditions of the API: insert only new objects, remove only objects that are there;
    the leaf hash set is iterated completely. *)
Definition allowed (o : op) (h : history) : Prop :=
  match o with
  | OMove e => env_ok e
  | OInsert d id => ~ In id (members true h) /\ ~ In id (members false h)
  | ORemove d id => In id (members d h)
  | OReindexObject d id => In id (members d h)
  | OReindexQuery order => forall id, In id (members true h) -> In id order
  end.
Fixpoint valid (h : history) : Prop :=
  match h with [] => env_ok e0 | o :: h => allowed o h /\ valid h end.

(** Running the model. *)
Definition apply (e : env T) (s : index T) (o : op) : index T :=
  match o with
  | OMove _ => s
  | OInsert d id => ix_insert d e s id
  | ORemove d id => ix_remove d s id
  | OReindexObject d id => ix_reindex_object d e s id
  | OReindexQuery order => fst (ix_reindex_query e order s)
  end.
Fixpoint run (h : history) : index T :=
  match h with [] => empty_index | o :: h => apply (env_now h) (run h) o end.

(** How often the unordered pair {i,j} occurs among the calls of the pair callback. *)
Definition times (i j : nat) (calls : list (nat * nat)) : nat :=
  length (filter (fun p => ((fst p =? i) && (snd p =? j)) || ((fst p =? j) && (snd p =? i))) calls).
End S.
Arguments op T : clear implicits.
