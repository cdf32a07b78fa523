(** Specification vocabulary for polylines. *)
From Coq Require Import Reals List Permutation.
From Verif Require Import Num Spec.
Import ListNotations.

(** the directed edges of a polyline, and of a set of polylines *)
Definition links {A} (l : list A) : list (A * A) := combine l (tl l).
Definition all_links {A} (ls : list (list A)) : list (A * A) := flat_map links ls.
(** it ends where it starts *)
Definition loops {A} (l : list A) : Prop := exists v p, l = v :: p ++ [v].
(** vertices left out, order kept *)
Inductive subseq {A} : list A -> list A -> Prop :=
| sub_nil : subseq [] []
| sub_skip x l m : subseq l m -> subseq l (x :: m)
| sub_keep x l m : subseq l m -> subseq (x :: l) (x :: m).
(** a point of the curve *)
Definition on_path (l : list RV) (p : RV) : Prop := exists u w, In (u, w) (links l) /\ on_segment u w p.
