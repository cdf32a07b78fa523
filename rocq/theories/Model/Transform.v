(** transform.go *)
From Coq Require Import ZArith Bool.
From Verif Require Import Num.
From Verif.Model Require Import Vector BB.
Local Open Scope num_scope.

(** transform.go:5-7 *)
Record Transform (T : Type) := mkT { ta : T; tb : T; tc : T; td : T; ttx : T; tty : T }.
Arguments mkT {T}. Arguments ta {T}. Arguments tb {T}. Arguments tc {T}. Arguments td {T}.
Arguments ttx {T}. Arguments tty {T}.

Section Transform.
Context {T : Type} `{Num T}.
Notation V := (Vec T).
Notation Tr := (Transform T).

(** transform.go:9-11 *)
Definition t_identity : Tr := mkT none_ nzero nzero none_ nzero nzero.
(** transform.go:17-19 (and 13-15, identical) *)
Definition t_transpose (a c tx b d ty : T) : Tr := mkT a b c d tx ty.
(** transform.go:21-26 *)
Definition t_translate (v : V) : Tr := t_transpose none_ nzero (vx v) nzero none_ (vy v).
(** transform.go:28-33 *)
Definition t_scale (sx sy : T) : Tr := t_transpose sx nzero nzero nzero sy nzero.
(** transform.go:51-56 *)
Definition t_rigid_inverse (t : Tr) : Tr :=
  t_transpose (td t) (- tc t) (tc t * tty t - ttx t * td t)
              (- tb t) (ta t) (ttx t * tb t - ta t * tty t).
(** transform.go:58-64 *)
Definition t_inverse (t : Tr) : Tr :=
  let inv_det := none_ / (ta t * td t - tc t * tb t) in
  t_transpose (td t * inv_det) (- tc t * inv_det) ((tc t * tty t - ttx t * td t) * inv_det)
              (- tb t * inv_det) (ta t * inv_det) ((ttx t * tb t - ta t * tty t) * inv_det).
(** transform.go:66-71 *)
Definition t_mult (t t2 : Tr) : Tr :=
  t_transpose
    (ta t * ta t2 + tc t * tb t2) (ta t * tc t2 + tc t * td t2) (ta t * ttx t2 + tc t * tty t2 + ttx t)
    (tb t * ta t2 + td t * tb t2) (tb t * tc t2 + td t * td t2) (tb t * ttx t2 + td t * tty t2 + tty t).
(** transform.go:73-75 *)
Definition t_point (t : Tr) (p : V) : V :=
  mkV (ta t * vx p + tc t * vy p + ttx t) (tb t * vx p + td t * vy p + tty t).
(** transform.go:77-79 *)
Definition t_vect (t : Tr) (v : V) : V :=
  mkV (ta t * vx v + tc t * vy v) (tb t * vx v + td t * vy v).
(** transform.go:81-92 *)
Definition t_bb (t : Tr) (x : BB T) : BB T :=
  let hw := (br x - bl x) * nhalf in
  let hh := (bt x - bb x) * nhalf in
  let a := ta t * hw in
  let b := tc t * hh in
  let d := tb t * hw in
  let e := td t * hh in
  let hw_max := nmax (nabs (a + b)) (nabs (a - b)) in
  let hh_max := nmax (nabs (d + e)) (nabs (d - e)) in
  bb_extents (t_point t (bb_center x)) hw_max hh_max.
(** transform.go:96-98 *)
Definition t_wrap (t inner : Tr) : Tr := t_mult (t_inverse t) (t_mult inner t).
(** transform.go:100-105 *)
Definition t_ortho (x : BB T) : Tr :=
  t_transpose (ntwo / (br x - bl x)) nzero (- (br x + bl x) / (br x - bl x))
              nzero (ntwo / (bt x - bb x)) (- (bt x + bb x) / (bt x - bb x)).
(** transform.go:107-113 *)
Definition t_bonescale (v0 v1 : V) : Tr :=
  let d := vsub v1 v0 in
  t_transpose (vx d) (- vy d) (vx v0) (vy d) (vx d) (vy v0).
(** transform.go:115-123 *)
Definition t_axialscale (axis pivot : V) (scale : T) : Tr :=
  let A := vx axis * vy axis * (scale - none_) in
  let B := vdot axis pivot * (none_ - scale) in
  t_transpose (scale * vx axis * vx axis + vy axis * vy axis) A (vx axis * B)
              A (vx axis * vx axis + scale * vy axis * vy axis) (vy axis * B).

Context `{Trig T}.
(** transform.go:35-41 *)
Definition t_rotate (radians : T) : Tr :=
  let rot := vforangle radians in
  t_transpose (vx rot) (- vy rot) nzero (vy rot) (vx rot) nzero.
(** transform.go:43-49 *)
Definition t_rigid (translate : V) (radians : T) : Tr :=
  let rot := vforangle radians in
  t_transpose (vx rot) (- vy rot) (vx translate) (vy rot) (vx rot) (vy translate).
End Transform.
