(** Post-step callbacks: AddPostStepCallback, PostStepCallback, Lock and the part of Unlock that runs the queue
    (space.go:243-249, 784-820, 1065-1093).  The activation of roused bodies in Unlock is in Model/Space.v. *)
From Coq Require Import List ZArith Bool Arith.
Import ListNotations.
Open Scope nat_scope.

(** What a program does with the queue.  A callback is a number, its body is looked up in [prog]; [None] stands for the nil function. *)
Inductive Act := Add (key : option nat) (cb : option nat) | LockSpace | UnlockSpace (runPostStep : bool).
(** What is observed: the n-th registration was accepted (at top level, or by a running callback) or refused; the n-th callback ran. *)
Inductive PEv := Accepted (n : nat) (top : bool) | Refused (n : nat) (top : bool) | Ran (n : nat).

(** space.go:243-247: an entry; [ps_cb] is nil once the entry has been taken.  Simplification: [data] is left out. *)
Record Entry := { ps_key : option nat; ps_cb : option (option nat) }.
(** The fields of Space involved: locked, skipPostStep, postStepCallbacks (a list of pointers into [ps_ent]); [ps_n] counts the calls of
    AddPostStepCallback and names the entries; [ps_tr] is the trace. *)
Record PS := { ps_locked : Z; ps_skip : bool; ps_q : list nat; ps_ent : nat -> Entry; ps_n : nat; ps_tr : list PEv }.
Definition ps_init : PS := {| ps_locked := 0; ps_skip := false; ps_q := []; ps_ent := fun _ => {| ps_key := None; ps_cb := None |}; ps_n := 0; ps_tr := [] |}.

Definition keyeq (a b : option nat) : bool := match a, b with Some x, Some y => Nat.eqb x y | None, None => true | _, _ => false end.
(** space.go:1065-1073 *)
Definition find_key (s : PS) (k : option nat) : bool := existsb (fun n => keyeq (ps_key (ps_ent s n)) k) (ps_q s).
(** space.go:1077-1093; a nil function becomes PostStepDoNothing, whose body is empty *)
Definition add_cb (top : bool) (s : PS) (k cb : option nat) : PS :=
  let n := ps_n s in
  if match k with None => true | Some _ => negb (find_key s k) end then
    {| ps_locked := ps_locked s; ps_skip := ps_skip s; ps_q := ps_q s ++ [n];
       ps_ent := fun m => if Nat.eqb m n then {| ps_key := k; ps_cb := Some cb |} else ps_ent s m; ps_n := S n; ps_tr := ps_tr s ++ [Accepted n top] |}
  else {| ps_locked := ps_locked s; ps_skip := ps_skip s; ps_q := ps_q s; ps_ent := ps_ent s; ps_n := S n; ps_tr := ps_tr s ++ [Refused n top] |}.
Definition ps_lock (s : PS) (l : Z) : PS := {| ps_locked := l; ps_skip := ps_skip s; ps_q := ps_q s; ps_ent := ps_ent s; ps_n := ps_n s; ps_tr := ps_tr s |}.
Definition ps_mode (s : PS) (b : bool) (q : list nat) : PS := {| ps_locked := ps_locked s; ps_skip := b; ps_q := q; ps_ent := ps_ent s; ps_n := ps_n s; ps_tr := ps_tr s |}.
(** space.go:804-809: callback.callback = nil *)
Definition take (s : PS) (n : nat) : PS :=
  {| ps_locked := ps_locked s; ps_skip := ps_skip s; ps_q := ps_q s;
     ps_ent := fun m => if Nat.eqb m n then {| ps_key := ps_key (ps_ent s n); ps_cb := None |} else ps_ent s m; ps_n := ps_n s; ps_tr := ps_tr s |}.
Definition say (s : PS) (e : PEv) : PS := {| ps_locked := ps_locked s; ps_skip := ps_skip s; ps_q := ps_q s; ps_ent := ps_ent s; ps_n := ps_n s; ps_tr := ps_tr s ++ [e] |}.

Section Run.
Variable prog : nat -> list Act.
Definition body (cb : option nat) : list Act := match cb with Some c => prog c | None => [] end.
Fixpoint seq (f : PS -> Act -> option PS) (s : PS) (l : list Act) : option PS :=
  match l with [] => Some s | a :: l => match f s a with Some s => seq f s l | None => None end end.
(** space.go:804-815: the range expression is evaluated once *)
Fixpoint drain (f : PS -> Act -> option PS) (s : PS) (l : list nat) : option PS :=
  match l with
  | [] => Some s
  | n :: l =>
    let c := ps_cb (ps_ent s n) in
    let s := take s n in
    match c with
    | None => drain f s l
    | Some cb => match seq f (say s (Ran n)) (body cb) with Some s => drain f s l | None => None end
    end
  end.
(** space.go:788-820.  [fuel] bounds the nesting of Unlock in callbacks, [None] means it was not enough. *)
Fixpoint act (fuel : nat) (top : bool) (s : PS) (a : Act) : option PS :=
  match a with
  | Add k cb => Some (add_cb top s k cb)
  | LockSpace => Some (ps_lock s (ps_locked s + 1))
  | UnlockSpace run =>
    let s := ps_lock s (ps_locked s - 1) in
    if negb (Z.eqb (ps_locked s) 0) then Some s else
    if run && negb (ps_skip s) then
      match fuel with
      | O => None
      | S fuel =>
        match drain (act fuel false) (ps_mode s true (ps_q s)) (ps_q s) with
        | Some s => Some (ps_mode s false [])
        | None => None
        end
      end
    else Some s
  end.
(** a history of calls *)
Definition history (l : list Act) : option PS := seq (act 1 true) ps_init l.
End Run.
