(** vector.go *)
From Coq Require Import ZArith Bool.
From Verif Require Import Num.
Local Open Scope num_scope.

(** vector.go:8-10 *)
Record Vec (T : Type) := mkV { vx : T; vy : T }.
Arguments mkV {T}. Arguments vx {T}. Arguments vy {T}.

Section Vector.
Context {T : Type} `{Num T}.
Notation V := (Vec T).

Definition vzero : V := mkV nzero nzero.
(** vector.go:16-18 *)
Definition vequal (v o : V) : bool := (vx v =? vx o) && (vy v =? vy o).
(** vector.go:20-22 *)
Definition vadd (v o : V) : V := mkV (vx v + vx o) (vy v + vy o).
(** vector.go:24-26 *)
Definition vsub (v o : V) : V := mkV (vx v - vx o) (vy v - vy o).
(** vector.go:28-30 *)
Definition vneg (v : V) : V := mkV (- vx v) (- vy v).
(** vector.go:32-34 *)
Definition vmult (v : V) (s : T) : V := mkV (vx v * s) (vy v * s).
(** vector.go:36-38 *)
Definition vdot (v o : V) : T := vx v * vx o + vy v * vy o.
(** vector.go:43-45 *)
Definition vcross (v o : V) : T := vx v * vy o - vy v * vx o.
(** vector.go:47-49 *)
Definition vperp (v : V) : V := mkV (- vy v) (vx v).
(** vector.go:51-53 *)
Definition vrperp (v : V) : V := mkV (vy v) (- vx v).
(** vector.go:55-57 *)
Definition vproject (v o : V) : V := vmult o (vdot v o / vdot o o).
(** vector.go:68-70 *)
Definition vrotate (v o : V) : V := mkV (vx v * vx o - vy v * vy o) (vx v * vy o + vy v * vx o).
(** vector.go:72-74 *)
Definition vunrotate (v o : V) : V := mkV (vx v * vx o + vy v * vy o) (vy v * vx o - vx v * vy o).
(** vector.go:76-78 *)
Definition vlensq (v : V) : T := vdot v v.
(** vector.go:80-82 *)
Definition vlen (v : V) : T := nsqrt (vdot v v).
(** vector.go:84-86 *)
Definition vlerp (v o : V) (t : T) : V := vadd (vmult v (none_ - t)) (vmult o t).
(** vector.go:88-90 *)
Definition vnormalize (v : V) : V := vmult v (none_ / (vlen v + nlit 1 1000000000000000)).
(** vector.go:104-110 *)
Definition nclamp (f mn mx : T) : T := if mn <? f then nmin f mx else nmin mn mx.
(** vector.go:112-114 *)
Definition nclamp01 (f : T) : T := nmax nzero (nmin f none_).
(** vector.go:116-118 *)
Definition nlerp (f1 f2 t : T) : T := f1 * (none_ - t) + f2 * t.
(** vector.go:120-122 *)
Definition nlerpconst (f1 f2 d : T) : T := f1 + nclamp (f2 - f1) (- d) d.
(** vector.go:130-135 *)
Definition vclamp (v : V) (len : T) : V :=
  if len * len <? vdot v v then vmult (vnormalize v) len else v.
(** vector.go:137-139 *)
Definition vlerpconst (v o : V) (d : T) : V := vadd v (vclamp (vsub o v) d).
(** vector.go:141-143 *)
Definition vdist (v o : V) : T := vlen (vsub v o).
(** vector.go:145-147 *)
Definition vdistsq (v o : V) : T := vlensq (vsub v o).
(** vector.go:149-151 *)
Definition vnear (v o : V) (d : T) : bool := vdistsq v o <? d * d.
(** vector.go:155-157 *)
Definition pointgreater (v b c : V) : bool :=
  (vx b - vx v) * (vy v + vy b - ntwo * vy c) <? (vy b - vy v) * (vx v + vx b - ntwo * vx c).
(** vector.go:159-161 *)
Definition checkaxis (v v1 p n : V) : bool := vdot p n <=? nmax (vdot v n) (vdot v1 n).
(** vector.go:163-166 *)
Definition closest_t (v b : V) : T :=
  let delta := vsub b v in
  - nclamp (vdot delta (vadd v b) / vlensq delta) (- none_) none_.
(** vector.go:168-171 *)
Definition vlerp_t (v b : V) (t : T) : V :=
  let ht := nhalf * t in vadd (vmult v (nhalf - ht)) (vmult b (nhalf + ht)).
(** vector.go:173-175 *)
Definition closest_dist (v v1 : V) : T := vlensq (vlerp_t v v1 (closest_t v v1)).
(** vector.go:177-181 *)
Definition closest_point_on_segment (v a b : V) : V :=
  let delta := vsub a b in
  let t := nclamp01 (vdot delta (vsub v b) / vlensq delta) in
  vadd b (vmult delta t).

Context `{Trig T}.
(** vector.go:60-62 *)
Definition vforangle (a : T) : V := mkV (ncos a) (nsin a).
End Vector.
