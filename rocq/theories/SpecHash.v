(** The reference for the hash set: a plain list of elements, one per key. *)
From Coq Require Import List NArith Bool Permutation.
From Verif.Model Require Import HashSet.
Import ListNotations.

Section S.
Context {T U K : Type}.
Variable isEqual : T -> U -> bool.
(** the key of a lookup value and of an element; equality means equal keys *)
Variables (kt : T -> K) (ku : U -> K).
(** the hash the caller computes for a key *)
Variable hk : K -> N.

Inductive hop :=
| HInsert (p : T) (transform : T -> U) | HRemove (p : T) | HFind (p : T) | HFilter (f : U -> bool) | HEach | HCount.
Inductive result := RElt (e : option U) | RList (l : list U) | RCount (n : N) | RUnit.

(** callers use one hash per key, and an element made for a key has that key *)
Definition hop_ok (o : hop) : Prop := match o with HInsert p tr => ku (tr p) = kt p | _ => True end.
Definition keyed : Prop := forall p e, isEqual p e = true <-> kt p = ku e.

(** the reference *)
Definition ref_step (l : list U) (o : hop) : result * list U :=
  match o with
  | HInsert p tr => match find (isEqual p) l with Some e => (RElt (Some e), l) | None => (RElt (Some (tr p)), tr p :: l) end
  | HRemove p => (RElt (find (isEqual p) l), filter (fun e => negb (isEqual p e)) l)
  | HFind p => (RElt (find (isEqual p) l), l)
  | HFilter f => (RUnit, filter f l)
  | HEach => (RList l, l)
  | HCount => (RCount (N.of_nat (length l)), l)
  end.
(** the code *)
Definition hs_step (s : HSet U) (o : hop) : option (result * HSet U) :=
  match o with
  | HInsert p tr => match hs_insert isEqual s (hk (kt p)) p tr with Some (e, s) => Some (RElt (Some e), s) | None => None end
  | HRemove p => match hs_remove isEqual s (hk (kt p)) p with Some (e, s) => Some (RElt e, s) | None => None end
  | HFind p => match hs_find isEqual s (hk (kt p)) p with Some e => Some (RElt e, s) | None => None end
  | HFilter f => match hs_filter s f with Some s => Some (RUnit, s) | None => None end
  | HEach => match hs_each s with Some l => Some (RList l, s) | None => None end
  | HCount => Some (RCount (hs_count s), s)
  end.
Fixpoint ref_run (l : list U) (os : list hop) : list result :=
  match os with [] => [] | o :: os => let '(r, l) := ref_step l o in r :: ref_run l os end.
Fixpoint hs_run (s : HSet U) (os : list hop) : option (list result) :=
  match os with
  | [] => Some []
  | o :: os => match hs_step s o with
               | None => None
               | Some (r, s) => match hs_run s os with Some rs => Some (r :: rs) | None => None end
               end
  end.
(** the largest number of elements ever held *)
Fixpoint peak (l : list U) (os : list hop) : N :=
  match os with [] => N.of_nat (length l) | o :: os => N.max (N.of_nat (length l)) (peak (snd (ref_step l o)) os) end.
(** same answers; Each may use any order *)
Definition same_result (r r' : result) : Prop :=
  match r, r' with RList l, RList l' => Permutation l l' | _, _ => r = r' end.
End S.
