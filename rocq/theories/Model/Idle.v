(** space.go:536-568: the idle time of one dynamic body in ProcessComponents.  (Model/Space.v takes the outcome of the comparison as
    its argument [moving].) *)
From Coq Require Import ZArith Bool List.
From Verif Require Import Num.
From Verif.Model Require Import Vector Body.
Local Open Scope num_scope.
Section Idle.
Context {T : Type} `{Num T}.
(** space.go:541-547; [dv]: IdleSpeedThreshold, [g]: gravity *)
Definition idle_dvsq (dv : T) (g : Vec T) (dt : T) : T := if negb (dv =? nzero) then dv * dv else vlensq g * dt * dt.
(** space.go:556-559 *)
Definition idle_limit (dv : T) (g : Vec T) (dt : T) (b : Body T) : T :=
  let dvsq := idle_dvsq dv g dt in if negb (dvsq =? nzero) then b_m b * dvsq else nzero.
(** space.go:560-564 *)
Definition idle_tick (dv : T) (g : Vec T) (dt : T) (b : Body T) : Body T :=
  if idle_limit dv g dt b <? b_kinetic_energy b then upd_idle b nzero else upd_idle b (b_idle b + dt).
(** one body through several calls: before each, the rest of the step has given it some velocity *)
Definition idle_step1 (dv : T) (g : Vec T) (b : Body T) (e : Vec T * T * T) : Body T :=
  let '(v, w, dt) := e in idle_tick dv g dt (upd_vel b v w).
End Idle.
