(** Vocabulary of the property statements: plain geometry, independent of the model's functions. *)
From Coq Require Import Reals ZArith Bool Lra.
From Verif Require Import Num.
From Verif.Model Require Import Vector BB.

(** A point (of any arithmetic) lies in a closed box. *)
Definition in_box {T} `{Num T} (b : BB T) (p : Vec T) : Prop :=
  nleb (bl b) (vx p) = true /\ nleb (vx p) (br b) = true /\
  nleb (bb b) (vy p) = true /\ nleb (vy p) (bt b) = true.
(** A box with ordered sides. For floats this also says that no side is NaN. *)
Definition ordered {T} `{Num T} (b : BB T) : Prop :=
  nleb (bl b) (br b) = true /\ nleb (bb b) (bt b) = true.
(** box [o] is a sub-box of [b] *)
Definition subbox {T} `{Num T} (o b : BB T) : Prop :=
  nleb (bl b) (bl o) = true /\ nleb (br o) (br b) = true /\
  nleb (bb b) (bb o) = true /\ nleb (bt o) (bt b) = true.
Definition ok_box {T} `{OrdNum T} (b : BB T) : Prop := ok (bl b) /\ ok (bb b) /\ ok (br b) /\ ok (bt b).
Definition ok_vec {T} `{OrdNum T} (v : Vec T) : Prop := ok (vx v) /\ ok (vy v).

Open Scope R_scope.
Notation RV := (Vec R).
(** the point at fraction [s] of the segment from [a] to [b] *)
Definition seg_point (a b : RV) (s : R) : RV :=
  mkV (vx a + s * (vx b - vx a)) (vy a + s * (vy b - vy a)).
Definition on_segment (a b p : RV) : Prop := exists s, 0 <= s <= 1 /\ p = seg_point a b s.
Definition norm2 (v : RV) : R := vx v * vx v + vy v * vy v.
Definition norm (v : RV) : R := sqrt (norm2 v).
Definition dist2 (p q : RV) : R := (vx p - vx q) * (vx p - vx q) + (vy p - vy q) * (vy p - vy q).
Definition dist (p q : RV) : R := sqrt (dist2 p q).
Definition inner (p q : RV) : R := vx p * vx q + vy p * vy q.
Definition unit (v : RV) : Prop := norm2 v = 1.
Definition vplus (p q : RV) : RV := mkV (vx p + vx q) (vy p + vy q).
Definition vminus (p q : RV) : RV := mkV (vx p - vx q) (vy p - vy q).
Definition vscale (k : R) (p : RV) : RV := mkV (k * vx p) (k * vy p).
