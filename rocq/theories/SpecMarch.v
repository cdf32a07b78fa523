(** Specification vocabulary for marching squares, over the reals. *)
From Coq Require Import Reals List.
From Verif Require Import Num Spec.
From Verif.Model Require Import Vector BB.
Import ListNotations.
Local Open Scope R_scope.

(** the grid: xs by ys nodes spread evenly over the box *)
Definition node (box : BB R) (xs ys i j : nat) : RV := mkV (bl box + INR i / (INR xs - 1) * (br box - bl box)) (bb box + INR j / (INR ys - 1) * (bt box - bb box)).
(** neighbouring nodes *)
Definition neighbours (box : BB R) (xs ys : nat) (u w : RV) : Prop :=
  (exists i j, (S i < xs)%nat /\ (j < ys)%nat /\ (u = node box xs ys i j /\ w = node box xs ys (S i) j \/ w = node box xs ys i j /\ u = node box xs ys (S i) j)) \/
  (exists i j, (i < xs)%nat /\ (S j < ys)%nat /\ (u = node box xs ys i j /\ w = node box xs ys i (S j) \/ w = node box xs ys i j /\ u = node box xs ys i (S j))).
(** a crossing: between an inside node u and an outside node w *)
Definition crossing (box : BB R) (xs ys : nat) (f : RV -> R) (t : R) (p : RV) : Prop :=
  exists u w k, neighbours box xs ys u w /\ f w <= t < f u /\ 0 <= k <= 1 /\ p = seg_point u w k /\ f u + k * (f w - f u) = t.
(** nodes on the border of the grid *)
Definition border (box : BB R) (xs ys : nat) (p : RV) : Prop := exists i j, (i < xs)%nat /\ (j < ys)%nat /\ (i = 0 \/ j = 0 \/ S i = xs \/ S j = ys)%nat /\ p = node box xs ys i j.
