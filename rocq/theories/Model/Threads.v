(** The intrusive lists of arbiters and constraints of a body, with their pointers:
    arbiter.go:63-112, body.go:465-472 and 580-593, body.go:548-551 and 602-621,
    space.go:296-340, constraint.go.  Addresses are numbers, nil is [None]. *)
From Coq Require Import Arith Bool List.
Import ListNotations.
Local Open Scope nat_scope.

(** arbiter.go:63-65 *)
Record Thr := mkThr { th_next : option nat; th_prev : option nat }.
(** arbiter.go:16-19: body_a, body_b and the two threads *)
Record TArb := mkTArb { t_a : nat; t_b : nat; t_ta : Thr; t_tb : Thr }.
(** the arbiters, and body.arbiterList of every body *)
Record THeap := mkTH { th_arb : nat -> TArb; th_list : nat -> option nat }.

Definition nil_thr : Thr := mkThr None None.
Definition th_new : THeap := mkTH (fun _ => mkTArb 0 0 nil_thr nil_thr) (fun _ => None).
Definition put {A} (f : nat -> A) (i : nat) (x : A) : nat -> A := fun j => if j =? i then x else f j.

(** arbiter.go:105-112 ThreadForBody, read and written *)
Definition thread (h : THeap) (x b : nat) : Thr := if t_a (th_arb h x) =? b then t_ta (th_arb h x) else t_tb (th_arb h x).
Definition set_thread (h : THeap) (x b : nat) (t : Thr) : THeap :=
  let r := th_arb h x in
  mkTH (put (th_arb h) x (if t_a r =? b then mkTArb (t_a r) (t_b r) t (t_tb r) else mkTArb (t_a r) (t_b r) (t_ta r) t)) (th_list h).
Definition set_next (h : THeap) (x b : nat) (v : option nat) : THeap := set_thread h x b (mkThr v (th_prev (thread h x b))).
Definition set_prev (h : THeap) (x b : nat) (v : option nat) : THeap := set_thread h x b (mkThr (th_next (thread h x b)) v).
Definition set_list (h : THeap) (b : nat) (v : option nat) : THeap := mkTH (th_arb h) (put (th_list h) b v).

(** arbiter.go:70-76 Next (space.go:669-674 ArbiterNext is the same) *)
Definition arb_next (h : THeap) (x b : nat) : option nat :=
  if t_a (th_arb h x) =? b then th_next (t_ta (th_arb h x)) else th_next (t_tb (th_arb h x)).

(** body.go:465-472 PushArbiter *)
Definition push_arbiter (h : THeap) (b x : nat) : THeap :=
  let next := th_list h b in
  let h := set_next h x b next in
  let h := match next with Some y => set_prev h y b (Some x) | None => h end in
  set_list h b (Some x).
(** space.go:582-583 *)
Definition push_both (h : THeap) (x : nat) : THeap :=
  push_arbiter (push_arbiter h (t_a (th_arb h x)) x) (t_b (th_arb h x)) x.

(** arbiter.go:83-103 unthreadHelper *)
Definition unthread_helper (h : THeap) (x b : nat) : THeap :=
  let prev := th_prev (thread h x b) in
  let next := th_next (thread h x b) in
  let h := match prev with
           | Some p => set_next h p b next
           | None => if match th_list h b with Some y => y =? x | None => false end then set_list h b next else h
           end in
  let h := match next with Some n => set_prev h n b prev | None => h end in
  set_prev (set_next h x b None) x b None.
(** arbiter.go:78-81 Unthread *)
Definition unthread_both (h : THeap) (x : nat) : THeap :=
  unthread_helper (unthread_helper h x (t_a (th_arb h x))) x (t_b (th_arb h x)).

(** arbiter.go:48-57, the part of Init concerned *)
Definition init_arb (h : THeap) (x a b : nat) : THeap := mkTH (put (th_arb h) x (mkTArb a b nil_thr nil_thr)) (th_list h).
(** arbiter.go:195-199, the part of Update concerned: the two shapes may have changed places *)
Definition rebody (h : THeap) (x a b : nat) : THeap :=
  mkTH (put (th_arb h) x (mkTArb a b (t_ta (th_arb h x)) (t_tb (th_arb h x)))) (th_list h).

(** body.go:580-593 EachArbiter (and every other loop over arbiterList): the arbiters visited,
    [None] if [fuel] rounds are not enough *)
Fixpoint walk_from (fuel : nat) (h : THeap) (b : nat) (cur : option nat) : option (list nat) :=
  match cur with
  | None => Some []
  | Some x => match fuel with
              | O => None
              | S fuel => match walk_from fuel h b (arb_next h x b) with Some l => Some (x :: l) | None => None end
              end
  end.
Definition each_arbiter (fuel : nat) (h : THeap) (b : nat) : option (list nat) := walk_from fuel h b (th_list h b).

(** ** Constraints *)
(** constraint.go: a, b, next_a, next_b; body.constraintList *)
Record KCon := mkKC { kc_a : nat; kc_b : nat; kc_na : option nat; kc_nb : option nat }.
Record KHeap := mkKH { kh_con : nat -> KCon; kh_list : nat -> option nat }.
Definition kh_new (ends : nat -> nat * nat) : KHeap := mkKH (fun c => mkKC (fst (ends c)) (snd (ends c)) None None) (fun _ => None).
Definition set_na (h : KHeap) (c : nat) (v : option nat) : KHeap :=
  mkKH (put (kh_con h) c (mkKC (kc_a (kh_con h c)) (kc_b (kh_con h c)) v (kc_nb (kh_con h c)))) (kh_list h).
Definition set_nb (h : KHeap) (c : nat) (v : option nat) : KHeap :=
  mkKH (put (kh_con h) c (mkKC (kc_a (kh_con h c)) (kc_b (kh_con h c)) (kc_na (kh_con h c)) v)) (kh_list h).
Definition set_clist (h : KHeap) (b : nat) (v : option nat) : KHeap := mkKH (kh_con h) (put (kh_list h) b v).
(** constraint.go Next *)
Definition con_next (h : KHeap) (c b : nat) : option nat := if kc_a (kh_con h c) =? b then kc_na (kh_con h c) else kc_nb (kh_con h c).
(** space.go:309-318, the list part of AddConstraint *)
Definition add_con (h : KHeap) (c : nat) : KHeap :=
  let a := kc_a (kh_con h c) in let b := kc_b (kh_con h c) in
  let h := set_na h c (kh_list h a) in
  let h := set_clist h a (Some c) in
  let h := set_nb h c (kh_list h b) in
  set_clist h b (Some c).
(** body.go:611-621 filterConstraints: [None] is the nil dereference (or no end within [fuel] rounds) *)
Fixpoint filter_cons (fuel : nat) (h : KHeap) (node : option nat) (b filter : nat) : option (KHeap * option nat) :=
  match fuel with
  | O => None
  | S fuel =>
    match node with
    | None => None
    | Some n =>
      if n =? filter then Some (h, con_next h n b)
      else if kc_a (kh_con h n) =? b then
        match filter_cons fuel h (kc_na (kh_con h n)) b filter with
        | Some (h, r) => Some (set_na h n r, Some n) | None => None end
      else
        match filter_cons fuel h (kc_nb (kh_con h n)) b filter with
        | Some (h, r) => Some (set_nb h n r, Some n) | None => None end
    end
  end.
(** body.go:548-551 Body.RemoveConstraint *)
Definition body_remove_con (fuel : nat) (h : KHeap) (b c : nat) : option KHeap :=
  match filter_cons fuel h (kh_list h b) b c with Some (h, r) => Some (set_clist h b r) | None => None end.
(** space.go:336-337: both bodies forget the constraint *)
Definition remove_con (fuel : nat) (h : KHeap) (c : nat) : option KHeap :=
  match body_remove_con fuel h (kc_a (kh_con h c)) c with
  | Some h => body_remove_con fuel h (kc_b (kh_con h c)) c
  | None => None
  end.
(** body.go:602-609 EachConstraint *)
Fixpoint con_walk (fuel : nat) (h : KHeap) (b : nat) (cur : option nat) : option (list nat) :=
  match cur with
  | None => Some []
  | Some c => match fuel with
              | O => None
              | S fuel => match con_walk fuel h b (con_next h c b) with Some l => Some (c :: l) | None => None end
              end
  end.
Definition each_constraint (fuel : nat) (h : KHeap) (b : nat) : option (list nat) := con_walk fuel h b (kh_list h b).
