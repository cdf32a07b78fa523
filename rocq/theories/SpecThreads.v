(** Lists of arbiters and constraints, without pointers. *)
From Coq Require Import Arith Bool List.
From Verif.Model Require Import Threads.
Import ListNotations.
Local Open Scope nat_scope.

(** What happens to arbiters: one is taken for a pair of bodies, its pair is met again (perhaps
    the other way round), it is pushed onto both bodies' lists, it is unthreaded. *)
Inductive top := Fresh (x a b : nat) | Again (x a b : nat) | Push (x : nat) | Unthread (x : nat).

(** the two bodies of every arbiter, and the arbiters pushed and not unthreaded since, last push first *)
Record threads := mkThreads { pair_of : nat -> nat * nat; live : list nat }.
Definition involves (t : threads) (b x : nat) : bool := (fst (pair_of t x) =? b) || (snd (pair_of t x) =? b).
Definition happens (t : threads) (o : top) : threads :=
  match o with
  | Fresh x a b | Again x a b => mkThreads (fun y => if y =? x then (a, b) else pair_of t y) (live t)
  | Push x => mkThreads (pair_of t) (x :: live t)
  | Unthread x => mkThreads (pair_of t) (filter (fun y => negb (y =? x)) (live t))
  end.
(** the bodies of an arbiter differ, and only an arbiter in no list is pushed or changed *)
Definition proper (t : threads) (o : top) : Prop :=
  match o with
  | Fresh x a b | Again x a b => a <> b /\ ~ In x (live t)
  | Push x => fst (pair_of t x) <> snd (pair_of t x) /\ ~ In x (live t)
  | Unthread x => fst (pair_of t x) <> snd (pair_of t x)
  end.
Fixpoint proper_all (t : threads) (os : list top) : Prop :=
  match os with [] => True | o :: os => proper t o /\ proper_all (happens t o) os end.
Definition none : threads := mkThreads (fun _ => (0, 0)) [].

(** the code carrying it out *)
Definition exec (h : THeap) (o : top) : THeap :=
  match o with
  | Fresh x a b => init_arb h x a b
  | Again x a b => rebody h x a b
  | Push x => push_both h x
  | Unthread x => unthread_both h x
  end.

(** ** Constraints *)
Inductive kop := AddK (c : nat) | RemK (c : nat).
Definition khappens (l : list nat) (o : kop) : list nat :=
  match o with AddK c => c :: l | RemK c => filter (fun d => negb (d =? c)) l end.
Definition kproper (ends : nat -> nat * nat) (l : list nat) (o : kop) : Prop :=
  match o with
  | AddK c => fst (ends c) <> snd (ends c) /\ ~ In c l
  | RemK c => In c l
  end.
Fixpoint kproper_all (ends : nat -> nat * nat) (l : list nat) (os : list kop) : Prop :=
  match os with [] => True | o :: os => kproper ends l o /\ kproper_all ends (khappens l o) os end.
Definition kexec (fuel : nat) (h : KHeap) (o : kop) : option KHeap :=
  match o with AddK c => Some (add_con h c) | RemK c => remove_con fuel h c end.
Fixpoint kexec_all (fuel : nat) (h : KHeap) (os : list kop) : option KHeap :=
  match os with [] => Some h | o :: os => match kexec fuel h o with Some h => kexec_all fuel h os | None => None end end.
