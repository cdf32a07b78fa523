(** body.go:580-592 Body.EachArbiter with the flag it sets, and the accessors of an arbiter that read the flag (arbiter.go:430-454). *)
From Coq Require Import ZArith Bool List Arith.
From Verif Require Import Num.
From Verif.Model Require Import Vector Body Solver Threads.
Import ListNotations.
Local Open Scope num_scope.

Section EachArb.
Context {T : Type} `{Num T}.
(** arb.swapped = s *)
Definition with_swapped (arb : Arb T) (s : bool) : Arb T := mkArb (ar_e arb) (ar_u arb) (ar_surf arb) (ar_n arb) (ar_contacts arb) s (ar_state arb).
(** arbiter.go:433-439; [sa], [sb]: the fields a and b *)
Definition arb_shapes (arb : Arb T) (sa sb : nat) : nat * nat := if ar_swapped arb then (sb, sa) else (sa, sb).
(** arbiter.go:443-446; [body]: the field body of a shape *)
Definition arb_bodies (body : nat -> nat) (arb : Arb T) (sa sb : nat) : nat * nat := let '(x, y) := arb_shapes arb sa sb in (body x, body y).
(** arbiter.go:448-454 *)
Definition arb_normal (arb : Arb T) : Vec T := if ar_swapped arb then vmult (ar_n arb) (- none_) else ar_n arb.

(** body.go:582-591; [A]: the arbiters; the callback may change them and leaves a note; [None]: not done within [fuel] rounds *)
Fixpoint each_loop {O : Type} (f : (nat -> Arb T) -> nat -> (nat -> Arb T) * O) (fuel : nat) (h : THeap) (b : nat) (A : nat -> Arb T) (cur : option nat) (notes : list (nat * O)) : option ((nat -> Arb T) * list (nat * O)) :=
  match cur with
  | None => Some (A, notes)
  | Some x =>
    match fuel with
    | O => None
    | S fuel =>
      let next := arb_next h x b in
      let swapped := ar_swapped (A x) in
      let A := put A x (with_swapped (A x) (Nat.eqb b (t_b (th_arb h x)))) in
      let '(A, o) := f A x in
      let A := put A x (with_swapped (A x) swapped) in
      each_loop f fuel h b A next (notes ++ [(x, o)])
    end
  end.
(** body.go:580-592 *)
Definition each_arbiter_cb {O : Type} (f : (nat -> Arb T) -> nat -> (nat -> Arb T) * O) (fuel : nat) (h : THeap) (b : nat) (A : nat -> Arb T) : option ((nat -> Arb T) * list (nat * O)) :=
  each_loop f fuel h b A (th_list h b) [].
End EachArb.
