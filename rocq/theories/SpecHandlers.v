(** Histories of handler registrations, for C30-C32. *)
From Coq Require Import List NArith Bool.
From Verif.Model Require Import HashSet Handlers.
Import ListNotations.
Local Open Scope N_scope.

(** the API: NewCollisionHandler(a,b), NewWildcardCollisionHandler(t), and assigning a handler's exported fields *)
Inductive hreg := RNew (a b : N) | RWild (t : N) | RAssign (ptr : nat) (f : Fns).
Definition pair_of (o : hreg) : option (N * N) :=
  match o with RNew a b => Some (a, b) | RWild t => Some (t, WILDCARD) | RAssign _ _ => None end.
(** the model, with a log of (requested pair of types, returned handler) *)
Definition hstep (s : HSpace) (o : hreg) : option (list ((N * N) * Key) * HSpace) :=
  match o with
  | RNew a b => match new_handler s a b with Some (k, s) => Some ([((a, b), k)], s) | None => None end
  | RWild t => match new_wildcard s t with Some (k, s) => Some ([((t, WILDCARD), k)], s) | None => None end
  | RAssign p f => Some ([], assign s p f)
  end.
Fixpoint hrun (s : HSpace) (log : list ((N * N) * Key)) (os : list hreg) : option (list ((N * N) * Key) * HSpace) :=
  match os with
  | [] => Some (log, s)
  | o :: os => match hstep s o with Some (l, s) => hrun s (log ++ l) os | None => None end
  end.
(** unordered pairs *)
Definition same_pair (p q : N * N) : Prop := p = q \/ p = (snd q, fst q).
(** the first registration of a pair *)
Definition same_pairb (p q : N * N) : bool := (fst p =? fst q) && (snd p =? snd q) || (fst p =? snd q) && (snd p =? fst q).
Definition first_reg (log : list ((N * N) * Key)) (a b : N) : option ((N * N) * Key) :=
  find (fun e => same_pairb (fst e) (a, b)) log.
Definition has_wild (os : list hreg) : bool := existsb (fun o => match o with RWild _ => true | _ => false end) os.
(** the wildcard handler of a type *)
Definition wild_of (log : list ((N * N) * Key)) (t : N) : Hdl :=
  match first_reg log t WILDCARD with Some (_, k) => HReg k | None => HDoNothing end.
