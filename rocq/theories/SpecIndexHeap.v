(** The histories of SpecIndex.v, run on the bounding-box trees as they lie in Go's heap. *)
From Coq Require Import Bool List Arith.
From Verif Require Import Num SpecIndex.
From Verif.Model Require Import Vector BB BBTree BBTreeHeap.
Import ListNotations.

Section S.
Context {T : Type} {NT : Num T}.
Variable e0 : env T.
Definition happly (e : env T) (s : hidx T) (o : op T) : option (hidx T) :=
  match o with
  | OMove _ => Some s
  | OInsert d id => hx_insert d e s id
  | ORemove d id => hx_remove d s id
  | OReindexObject d id => hx_reindex_object d e s id
  | OReindexQuery order => match hx_reindex_query e order s with Some (s', _) => Some s' | None => None end
  end.
(** [None]: at some point of the history the code followed a nil pointer, called a nil function, or
    went round in a loop for ever *)
Fixpoint hrun (h : list (op T)) : option (hidx T) :=
  match h with
  | [] => Some hi_new
  | o :: h => match hrun h with Some s => happly (env_now e0 h) s o | None => None end
  end.

(** The largest value of [f] over all moments of the history. *)
Fixpoint peak (f : list (op T) -> nat) (h : list (op T)) : nat :=
  match h with [] => f [] | _ :: h' => Nat.max (f h) (peak f h') end.
(** objects in tree [d]; pairs with one object moving *)
Definition count (d : bool) (h : list (op T)) : nat := length (members d h).
Definition couples (h : list (op T)) : nat := count true h * (count true h + count false h).
End S.
