(** poly.go: ConvexHull, LoopIndexes, QHullReduce, QHullPartition.  The array is a list; a slice is an offset into it, so that the
    overlap of the result with the points not yet looked at is modelled.  An index out of range is [None] (a panic). *)
From Coq Require Import List Arith Bool.
From Verif Require Import Num.
From Verif.Model Require Import Vector.
Import ListNotations.
Local Open Scope num_scope.

Section Hull.
Context {T : Type} `{Num T}.
Notation V := (Vec T).
Notation "'let*' x := e 'in' k" := (match e with Some x => k | None => None end) (at level 200, x pattern, k at level 200).

(** array element assignment and exchange *)
Fixpoint aset (l : list V) (i : nat) (v : V) : option (list V) :=
  match l, i with
  | [], _ => None
  | _ :: l, O => Some (v :: l)
  | x :: l, S i => let* l := aset l i v in Some (x :: l)
  end.
Definition aswap (l : list V) (i j : nat) : option (list V) :=
  let* x := nth_error l i in let* y := nth_error l j in let* l := aset l i y in aset l j x.

(** poly.go:331-332: the value compared *)
Definition side (a b v : V) : T := vcross (vsub v a) (vsub b a).
Definition side_tol (tol : T) (a b : V) : T := tol * vlen (vsub b a).
(** poly.go:329-345; [n] is tail-head+1, the number of points not yet looked at *)
Fixpoint part_loop (n : nat) (arr : list V) (off : nat) (a b : V) (vt : T) (head : nat) (mx : T) (pivot : nat) : option (list V * nat * nat) :=
  match n with
  | O => Some (arr, head, pivot)
  | S n =>
    let* v := nth_error arr (off + head) in
    let value := side a b v in
    if vt <? value then
      if mx <? value then part_loop n arr off a b vt (S head) value head
      else part_loop n arr off a b vt (S head) mx pivot
    else
      let* arr := aswap arr (off + head) (off + (head + n)) in
      part_loop n arr off a b vt head mx pivot
  end.
(** poly.go:317-352: the new array and the number of points kept in front *)
Definition partition (arr : list V) (off count : nat) (a b : V) (tol : T) : option (list V * nat) :=
  match count with
  | O => Some (arr, O)
  | _ =>
    let* (arr, head, pivot) := part_loop count arr off a b (side_tol tol a b) 0 nzero 0 in
    match pivot with
    | O => Some (arr, head)
    | _ => let* arr := aswap arr off (off + pivot) in Some (arr, head)
    end
  end.
(** poly.go:295-315; [off]: offset of verts, [res]: offset of result.  [fuel] bounds the recursion (None: exhausted, shown impossible). *)
Fixpoint reduce (fuel : nat) (tol : T) (arr : list V) (off count : nat) (a pivot b : V) (res : nat) : option (list V * nat) :=
  match fuel with
  | O => None
  | S fuel =>
    match count with
    | O => let* arr := aset arr res pivot in Some (arr, 1%nat)
    | _ =>
      let* (arr, lc) := partition arr off count a pivot tol in
      let* (arr, index) :=
        match lc with
        | O => Some (arr, 0%nat)
        | S l => let* v := nth_error arr off in reduce fuel tol arr (off + 1) l a v pivot res
        end in
      let* arr := aset arr (res + index) pivot in
      let index := S index in
      let* (arr, rc) := partition arr (off + lc) (count - lc) pivot b tol in
      match rc with
      | O => Some (arr, index)
      | S r =>
        let* v := nth_error arr (off + lc) in
        let* (arr, k) := reduce fuel tol arr (off + lc + 1) r pivot v b (res + index) in
        Some (arr, (index + k)%nat)
      end
    end
  end.
(** poly.go:273-293 *)
Definition vlt (u v : V) : bool := (vx u <? vx v) || ((vx u =? vx v) && (vy u <? vy v)).
Fixpoint loop_indexes (l : list V) (i : nat) (mn mx : V) (start end_ : nat) : nat * nat :=
  match l with
  | [] => (start, end_)
  | v :: l =>
    if vlt v mn then loop_indexes l (S i) v mx i end_
    else if vlt mx v then loop_indexes l (S i) mn v start i
    else loop_indexes l (S i) mn mx start end_
  end.
(** poly.go:250-271: the array, the number of hull points in front of it, and [*first]; [count] is len(verts) *)
Definition convex_hull (verts : list V) (tol : T) : option (list V * nat * nat) :=
  match verts with
  | [] => None
  | v :: rest =>
    let (start, end_) := loop_indexes rest 1 v v 0 0 in
    if Nat.eqb start end_ then Some (verts, 1%nat, 0%nat) else
    let* arr := aswap verts 0 start in
    let* arr := if Nat.eqb end_ 0 then aswap arr 1 start else aswap arr 1 end_ in
    let* a := nth_error arr 0 in
    let* b := nth_error arr 1 in
    let* (arr, n) := reduce (length verts) tol arr 2 (length verts - 2) a b a 1 in
    Some (arr, S n, start)
  end.
End Hull.
