(** march.go: marching squares.  The result is the list of the calls marchSegment(v0, v1), in order.  The sampling callback is given the number of the call as well as
    the point, so that it may answer differently at every call. *)
From Coq Require Import ZArith List Arith Bool.
From Verif Require Import Num.
From Verif.Model Require Import Vector BB.
Import ListNotations.
Local Open Scope num_scope.

Section March.
Context {T : Type} `{Num T}.
Notation V := (Vec T).

(** march.go:59-63 *)
Definition seg (v0 v1 : V) : list (V * V) := if vequal v0 v1 then [] else [(v1, v0)].
(** march.go:65-67 *)
Definition midlerp (x0 x1 s0 s1 t : T) : T := nlerp x0 x1 ((t - s0) / (s1 - s0)).
(** march.go:132-135 *)
Definition segs (a b c : V) : list (V * V) := seg b c ++ seg a b.

(** march.go:69-122: the sixteen cases; the bits are written d, c, b, a as in the hexadecimal constants *)
Definition cell_soft (t a b c d x0 x1 y0 y1 : T) : list (V * V) :=
  match t <? d, t <? c, t <? b, t <? a with
  | false, false, false, false => []
  | false, false, false, true => seg (mkV x0 (midlerp y0 y1 a c t)) (mkV (midlerp x0 x1 a b t) y0)
  | false, false, true, false => seg (mkV (midlerp x0 x1 a b t) y0) (mkV x1 (midlerp y0 y1 b d t))
  | false, false, true, true => seg (mkV x0 (midlerp y0 y1 a c t)) (mkV x1 (midlerp y0 y1 b d t))
  | false, true, false, false => seg (mkV (midlerp x0 x1 c d t) y1) (mkV x0 (midlerp y0 y1 a c t))
  | false, true, false, true => seg (mkV (midlerp x0 x1 c d t) y1) (mkV (midlerp x0 x1 a b t) y0)
  | false, true, true, false => seg (mkV (midlerp x0 x1 a b t) y0) (mkV x1 (midlerp y0 y1 b d t)) ++ seg (mkV (midlerp x0 x1 c d t) y1) (mkV x0 (midlerp y0 y1 a c t))
  | false, true, true, true => seg (mkV (midlerp x0 x1 c d t) y1) (mkV x1 (midlerp y0 y1 b d t))
  | true, false, false, false => seg (mkV x1 (midlerp y0 y1 b d t)) (mkV (midlerp x0 x1 c d t) y1)
  | true, false, false, true => seg (mkV x0 (midlerp y0 y1 a c t)) (mkV (midlerp x0 x1 a b t) y0) ++ seg (mkV x1 (midlerp y0 y1 b d t)) (mkV (midlerp x0 x1 c d t) y1)
  | true, false, true, false => seg (mkV (midlerp x0 x1 a b t) y0) (mkV (midlerp x0 x1 c d t) y1)
  | true, false, true, true => seg (mkV x0 (midlerp y0 y1 a c t)) (mkV (midlerp x0 x1 c d t) y1)
  | true, true, false, false => seg (mkV x1 (midlerp y0 y1 b d t)) (mkV x0 (midlerp y0 y1 a c t))
  | true, true, false, true => seg (mkV x1 (midlerp y0 y1 b d t)) (mkV (midlerp x0 x1 a b t) y0)
  | true, true, true, false => seg (mkV (midlerp x0 x1 a b t) y0) (mkV x0 (midlerp y0 y1 a c t))
  | true, true, true, true => []
  end.
(** march.go:137-194 *)
Definition cell_hard (t a b c d x0 x1 y0 y1 : T) : list (V * V) :=
  let xm := nlerp x0 x1 nhalf in
  let ym := nlerp y0 y1 nhalf in
  match t <? d, t <? c, t <? b, t <? a with
  | false, false, false, false => []
  | false, false, false, true => segs (mkV x0 ym) (mkV xm ym) (mkV xm y0)
  | false, false, true, false => segs (mkV xm y0) (mkV xm ym) (mkV x1 ym)
  | false, false, true, true => seg (mkV x0 ym) (mkV x1 ym)
  | false, true, false, false => segs (mkV xm y1) (mkV xm ym) (mkV x0 ym)
  | false, true, false, true => seg (mkV xm y1) (mkV xm y0)
  | false, true, true, false => segs (mkV xm y0) (mkV xm ym) (mkV x0 ym) ++ segs (mkV xm y1) (mkV xm ym) (mkV x1 ym)
  | false, true, true, true => segs (mkV xm y1) (mkV xm ym) (mkV x1 ym)
  | true, false, false, false => segs (mkV x1 ym) (mkV xm ym) (mkV xm y1)
  | true, false, false, true => segs (mkV x1 ym) (mkV xm ym) (mkV xm y0) ++ segs (mkV x0 ym) (mkV xm ym) (mkV xm y1)
  | true, false, true, false => seg (mkV xm y0) (mkV xm y1)
  | true, false, true, true => segs (mkV x0 ym) (mkV xm ym) (mkV xm y1)
  | true, true, false, false => seg (mkV x1 ym) (mkV x0 ym)
  | true, true, false, true => segs (mkV x1 ym) (mkV xm ym) (mkV xm y0)
  | true, true, true, false => segs (mkV xm y0) (mkV xm ym) (mkV x0 ym)
  | true, true, true, true => []
  end.

Section Cells.
Variables (box : BB T) (xs ys : nat) (t : T) (sample : nat -> V -> T) (cell : T -> T -> T -> T -> T -> T -> T -> T -> T -> list (V * V)).
(** float64(i) *)
Definition nat_num (i : nat) : T := nlit (Z.of_nat i) 1.
(** march.go:21-22 and Lerp(bb.L, bb.R, float64(i)*x_denom) *)
Definition grid_x (i : nat) : T := nlerp (bl box) (br box) (nat_num i * (none_ / nlit (Z.of_nat xs - 1) 1)).
Definition grid_y (j : nat) : T := nlerp (bb box) (bt box) (nat_num j * (none_ / nlit (Z.of_nat ys - 1) 1)).
(** march.go:24-28: the first row; the i-th call *)
Definition first_row : list T := map (fun i => sample i (mkV (grid_x i) (bb box))) (seq 0 xs).
(** march.go:42-53: one row of cells, from column [i] on; [buf] is buffer[i+1:].  Returns the new buffer[i+1:] and the segments. *)
Fixpoint march_row (k i : nat) (b d : T) (buf : list T) (y0 y1 : T) : list T * list (V * V) :=
  match buf with
  | [] => ([], [])
  | b' :: buf =>
    let x0 := grid_x i in
    let x1 := grid_x (S i) in
    let d' := sample k (mkV x1 y1) in
    let (buf', out) := march_row (S k) (S i) b' d' buf y0 y1 in
    (d' :: buf', cell t b b' d d' x0 x1 y0 y1 ++ out)
  end.
(** march.go:31-54: [n] rows from row [j]; an empty buffer is an index out of range ([None]) *)
Fixpoint march_rows (n k j : nat) (buf : list T) : option (list (V * V)) :=
  match n with
  | O => Some []
  | S n =>
    let y0 := grid_y j in
    let y1 := grid_y (S j) in
    match buf with
    | [] => None
    | b :: buf =>
      let d := sample k (mkV (bl box) y1) in
      let (buf', out) := march_row (S k) 0 b d buf y0 y1 in
      match march_rows n (k + xs) (S j) (d :: buf') with
      | Some more => Some (out ++ more)
      | None => None
      end
    end
  end.
(** march.go:19-57 MarchCells, for sample counts that are not negative *)
Definition march_cells : option (list (V * V)) := march_rows (ys - 1) xs 0 first_row.
End Cells.
(** march.go:124-129, 196-201 *)
Definition march_soft box xs ys t sample := march_cells box xs ys t sample cell_soft.
Definition march_hard box xs ys t sample := march_cells box xs ys t sample cell_hard.
End March.
