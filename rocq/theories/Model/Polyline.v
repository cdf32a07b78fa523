(** polyline.go: polylines, their collection from segments, and simplification. *)
From Coq Require Import ZArith List Arith Bool.
From Verif Require Import Num.
From Verif.Model Require Import Vector Hull.
Import ListNotations.
Local Open Scope num_scope.

(** how a call ends: out of steps ([Out]; a call that hangs is one that is [Out] for every number of steps), a panic, or a value *)
Inductive Res (A : Type) := Out | Panic | Val (a : A).
Arguments Out {A}. Arguments Panic {A}. Arguments Val {A} a.
Definition rbind {A B} (r : Res A) (f : A -> Res B) : Res B := match r with Out => Out | Panic => Panic | Val a => f a end.
Definition lift {A} (o : option A) : Res A := match o with Some a => Val a | None => Panic end.

Section Polyline.
Context {T : Type} `{Num T} `{Trig T}.
Notation V := (Vec T).
Notation "'do' x '<-' e 'in' k" := (rbind e (fun x => k)) (at level 200, x pattern, k at level 200).

(** ** polyline.go:134-188: collecting segments.  A polyline is its vertex list; a polyline without vertices (which no function here makes) is skipped. *)
Notation line := (list V).
(** the last vertex *)
Fixpoint vlast (l : line) : option V := match l with [] => None | [v] => Some v | _ :: l => vlast l end.
(** polyline.go:134-141 FindEnds; [None] is -1 *)
Fixpoint find_ends (ls : list line) (v : V) : option nat :=
  match ls with
  | [] => None
  | l :: ls => if match vlast l with Some w => vequal w v | None => false end then Some O else option_map S (find_ends ls v)
  end.
(** polyline.go:144-151 FindStarts *)
Fixpoint find_starts (ls : list line) (v : V) : option nat :=
  match ls with
  | [] => None
  | l :: ls => if match hd_error l with Some w => vequal w v | None => false end then Some O else option_map S (find_starts ls v)
  end.
(** changing line [i] *)
Fixpoint update (ls : list line) (i : nat) (f : line -> line) : list line :=
  match ls, i with
  | [], _ => []
  | l :: ls, O => f l :: ls
  | l :: ls, S i => l :: update ls i f
  end.
(** deleting line [i] (the copy and the reslice) *)
Definition delete (ls : list line) (i : nat) : list line := firstn i ls ++ skipn (S i) ls.
(** polyline.go:161-165 Join *)
Definition join (ls : list line) (before after : nat) : list line := delete (update ls before (fun l => l ++ nth after ls [])) after.
(** polyline.go:169-188 PolyLineCollectSegment *)
Definition collect (v0 v1 : V) (ls : list line) : list line :=
  match find_ends ls v0, find_starts ls v1 with
  | Some before, Some after =>
    if Nat.eqb before after then update ls before (fun l => l ++ [v1]) else join ls before after
  | Some before, None => update ls before (fun l => l ++ [v1])
  | None, Some after => update ls after (fun l => v0 :: l)
  | None, None => ls ++ [[v0; v1]]
  end.
(** collecting a sequence of segments into an empty set *)
Definition collect_all (segs : list (V * V)) : list line := fold_left (fun ls s => collect (fst s) (snd s) ls) segs [].

(** ** polyline.go:13-48 *)
Definition next (i count : nat) : nat := (i + 1) mod count.
Definition sharpness (a b c : V) : T := vdot (vnormalize (vsub a b)) (vnormalize (vsub c b)).
Definition is_closed (l : line) : bool := (1 <? length l)%nat && match hd_error l, vlast l with Some v, Some w => vequal v w | _, _ => false end.
(** polyline.go:35-46: [i] is never advanced, so every round adds the same distance *)
Fixpoint short_loop (fuel : nat) (l : line) (count i end_ : nat) (mn len : T) : Res bool :=
  match fuel with
  | O => Out
  | S fuel =>
    if Nat.eqb i end_ then Val true else
    do v <- lift (nth_error l i) in
    do w <- lift (nth_error l (next i count)) in
    let len := len + vdist v w in
    if mn <? len then Val false else short_loop fuel l count i end_ mn len
  end.
Definition is_short (fuel : nat) (l : line) (count start end_ : nat) (mn : T) : Res bool := short_loop fuel l count start end_ mn nzero.

(** ** polyline.go:50-70 SimplifyVertexes; [reduced] is kept in reverse, so that its last two vertices are in front *)
Fixpoint simplify_loop (min_sharp : T) (vs : line) (rev_reduced : line) : Res line :=
  match vs with
  | [] => Val rev_reduced
  | v :: vs =>
    match rev_reduced with
    | q :: p :: r => simplify_loop min_sharp vs (if sharpness p q v <=? min_sharp then v :: p :: r else v :: q :: p :: r)
    | _ => Panic
    end
  end.
Definition simplify_vertexes (tol : T) (l : line) : Res line :=
  match l with
  | v0 :: v1 :: vs =>
    let min_sharp := - ncos tol in
    do red <- simplify_loop min_sharp vs [v1; v0] in
    let reduced := rev red in
    match reduced, red with
    | a :: b :: tl, _ :: p :: _ => if is_closed l && (sharpness p a b <? min_sharp) then Val (p :: b :: tl) else Val reduced
    | _, _ => Panic
    end
  | _ => Panic
  end.

(** ** polyline.go:72-110 DouglasPeucker.  [dfuel] bounds the recursion, [sfuel] the rounds of IsShort. *)
Definition offline (n : V) (d : T) (v : V) : T := nabs (vdot n v - d).
Fixpoint farthest (fuel : nat) (verts : line) (count i end_ : nat) (n : V) (d : T) (mx : T) (maxi : nat) : Res (T * nat) :=
  match fuel with
  | O => Out
  | S fuel =>
    if Nat.eqb i end_ then Val (mx, maxi) else
    do v <- lift (nth_error verts i) in
    let dist := offline n d v in
    if mx <? dist then farthest fuel verts count (next i count) end_ n d dist i
    else farthest fuel verts count (next i count) end_ n d mx maxi
  end.
Fixpoint douglas_peucker (dfuel sfuel : nat) (verts reduced : line) (count start end_ : nat) (mn tol : T) : Res line :=
  match dfuel with
  | O => Out
  | S dfuel =>
    if ((end_ + count - start) mod count <? 2)%nat then Val reduced else
    do a <- lift (nth_error verts start) in
    do b <- lift (nth_error verts end_) in
    do stop <- (if vnear a b mn then is_short sfuel reduced count start end_ mn else Val false) in
    if (stop : bool) then Val reduced else
    let n := vnormalize (vperp (vsub b a)) in
    let d := vdot n a in
    do (mx, maxi) <- farthest (S count) verts count (next start count) end_ n d nzero start in
    if tol <? mx then
      do reduced <- douglas_peucker dfuel sfuel verts reduced count start maxi mn tol in
      do v <- lift (nth_error verts maxi) in
      douglas_peucker dfuel sfuel verts (reduced ++ [v]) count maxi end_ mn tol
    else Val reduced
  end.
(** polyline.go:112-132 SimplifyCurves *)
Definition simplify_curves (sfuel : nat) (tol : T) (l : line) : Res line :=
  let mn := tol / ntwo in
  if is_closed l then
    match l with
    | [] => Panic
    | v :: rest =>
      let count := (length l - 1)%nat in
      let (start, end_) := loop_indexes (firstn (count - 1) rest) 1 v v 0 0 in
      do s <- lift (nth_error l start) in
      do reduced <- douglas_peucker (length l) sfuel l [s] count start end_ mn tol in
      do e <- lift (nth_error l end_) in
      do reduced <- douglas_peucker (length l) sfuel l (reduced ++ [e]) count end_ start mn tol in
      Val (reduced ++ [s])
    end
  else
    do s <- lift (nth_error l 0) in
    do reduced <- douglas_peucker (length l) sfuel l [s] (length l) 0 (length l - 1) mn tol in
    do e <- lift (nth_error l (length l - 1)) in
    Val (reduced ++ [e]).
End Polyline.
