(** bb.go *)
From Coq Require Import ZArith Bool.
From Verif Require Import Num.
From Verif.Model Require Import Vector.
Local Open Scope num_scope.

(** bb.go:9-11 *)
Record BB (T : Type) := mkBB { bl : T; bb : T; br : T; bt : T }.
Arguments mkBB {T}. Arguments bl {T}. Arguments bb {T}. Arguments br {T}. Arguments bt {T}.

Section BBox.
Context {T : Type} `{Num T}.
Notation V := (Vec T).
Notation B := (BB T).

(** bb.go:28-35 *)
Definition bb_extents (c : V) (hw hh : T) : B := mkBB (vx c - hw) (vy c - hh) (vx c + hw) (vy c + hh).
(** bb.go:38-40 *)
Definition bb_circle (p : V) (r : T) : B := bb_extents p r r.
(** bb.go:43-45 *)
Definition bb_intersects (a b : B) : bool :=
  (bl a <=? br b) && (bl b <=? br a) && (bb a <=? bt b) && (bb b <=? bt a).
(** bb.go:48-50; Go's x >= y is y <= x *)
Definition bb_contains (a o : B) : bool :=
  (bl a <=? bl o) && (br o <=? br a) && (bb a <=? bb o) && (bt o <=? bt a).
(** bb.go:53-55 *)
Definition bb_contains_vect (a : B) (v : V) : bool :=
  (bl a <=? vx v) && (vx v <=? br a) && (bb a <=? vy v) && (vy v <=? bt a).
(** bb.go:58-65 *)
Definition bb_merge (a b : B) : B :=
  mkBB (nmin (bl a) (bl b)) (nmin (bb a) (bb b)) (nmax (br a) (br b)) (nmax (bt a) (bt b)).
(** bb.go:68-75 *)
Definition bb_expand (a : B) (v : V) : B :=
  mkBB (nmin (bl a) (vx v)) (nmin (bb a) (vy v)) (nmax (br a) (vx v)) (nmax (bt a) (vy v)).
(** bb.go:78-80 *)
Definition bb_center (a : B) : V := vlerp (mkV (bl a) (bb a)) (mkV (br a) (bt a)) nhalf.
(** bb.go:83-85 *)
Definition bb_area (a : B) : T := (br a - bl a) * (bt a - bb a).
(** bb.go:88-90 *)
Definition bb_merged_area (a b : B) : T :=
  (nmax (br a) (br b) - nmin (bl a) (bl b)) * (nmax (bt a) (bt b) - nmin (bb a) (bb b)).

(** bb.go:99-108 / 110-119: one slab; [None] is the early return of INFINITY *)
Definition bb_slab (d a lo hi tmin tmax : T) : option (T * T) :=
  if d =? nzero then
    if (a <? lo) || (hi <? a) then None else Some (tmin, tmax)
  else
    let t1 := (lo - a) / d in
    let t2 := (hi - a) / d in
    Some (nmax tmin (nmin t1 t2), nmin tmax (nmax t1 t2)).

(** bb.go:94-126 *)
Definition bb_segment_query (x : B) (a b : V) : T :=
  let delta := vsub b a in
  match bb_slab (vx delta) (vx a) (bl x) (br x) (- ninf) ninf with
  | None => ninf
  | Some (tmin, tmax) =>
    match bb_slab (vy delta) (vy a) (bb x) (bt x) tmin tmax with
    | None => ninf
    | Some (tmin, tmax) =>
      if (tmin <=? tmax) && (nzero <=? tmax) && (tmin <=? none_) then nmax tmin nzero else ninf
    end
  end.
(** bb.go:129-131 *)
Definition bb_intersects_segment (x : B) (a b : V) : bool := negb (bb_segment_query x a b =? ninf).
(** bb.go:134-136 *)
Definition bb_clamp_vect (x : B) (v : V) : V :=
  mkV (nclamp (vx v) (bl x) (br x)) (nclamp (vy v) (bb x) (bt x)).
(** bb.go:162-169 *)
Definition bb_offset (x : B) (v : V) : B := mkBB (bl x + vx v) (bb x + vy v) (br x + vx v) (bt x + vy v).
(** bb.go:171-173 *)
Definition bb_proximity (a b : B) : T :=
  nabs (bl a + br a - bl b - br b) + nabs (bb a + bt a - bb b - bt b).

Context `{Trig T}.
(** bb.go:140-147 / 149-156 *)
Definition wrap1 (v lo hi : T) : T :=
  let d := nabs (hi - lo) in
  let m := nfmod (v - lo) d in
  (if nzero <? m then m else m + d) + lo.
(** bb.go:139-159 *)
Definition bb_wrap_vect (x : B) (v : V) : V :=
  mkV (wrap1 (vx v) (bl x) (br x)) (wrap1 (vy v) (bb x) (bt x)).
End BBox.
