(** vector.go: the spherical interpolations, for any acos and sin. *)
From Coq Require Import ZArith Bool.
From Verif Require Import Num.
From Verif.Model Require Import Vector.
Local Open Scope num_scope.

Section Slerp.
Context {T : Type} `{Num T}.
Variable acos sin : T -> T.
(** vector.go:93-94, 125-126 *)
Definition vomega (v o : Vec T) : T := acos (nclamp (vdot (vnormalize v) (vnormalize o)) (- none_) none_).
(** vector.go:92-102 *)
Definition vslerp (v o : Vec T) (t : T) : Vec T :=
  let omega := vomega v o in
  if omega <? nlit 1 1000 then vlerp v o t
  else
    let denom := none_ / sin omega in
    vadd (vmult v (sin ((none_ - t) * omega) * denom)) (vmult o (sin (t * omega) * denom)).
(** vector.go:124-128 *)
Definition vslerpconst (v o : Vec T) (a : T) : Vec T :=
  let omega := vomega v o in vslerp v o (nmin a omega / omega).
End Slerp.
