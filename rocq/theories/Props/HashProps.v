(** Property C09: the hash set behind the arbiter cache and the collision handlers is a finite map. *)
From Coq Require Import List NArith Bool Permutation Lia.
From Verif Require Import SpecHash.
From Verif.Model Require Import HashSet.
From Verif.Proofs Require Import HashSetPf.
Import ListNotations.

(** ** C09 *)
(** Every history of Insert, Remove, Find, Filter, Each and Count, started on a new set, gives the answers of the
    reference list - no loop runs forever, nothing panics - as long as it never holds 1610612741 elements. *)
Theorem C09_hashset_is_a_finite_map :
  forall (T U K : Type) (isEqual : T -> U -> bool) (kt : T -> K) (ku : U -> K) (hk : K -> N) (os : list (@hop T U)),
  keyed isEqual kt ku -> Forall (hop_ok kt ku) os -> (peak isEqual [] os < 1610612741)%N ->
  exists rs, hs_run isEqual kt hk hs_new os = Some rs /\ Forall2 same_result rs (ref_run isEqual [] os).
Proof. intros. now apply (hs_run_ok isEqual kt ku hk H os hs_new [] (fun _ => []) []); [apply inv_new|..]. Qed.

(** The bound is there for a reason: the table sizes run out (hashset.go:190-229) and the search for the next one
    ends in an index out of range. *)
Theorem C09_table_sizes_run_out : next_prime (1610612741 + 1) = None.
Proof. vm_compute. reflexivity. Qed.

(** A history that collides (all hashes equal), resizes, recycles and reuses bins; keys are numbers, elements are pairs. *)
Definition ex_eq (k : N) (e : N * N) : bool := N.eqb k (fst e).
Definition ex_ins (k v : N) : @hop N (N * N) := HInsert k (fun k => (k, v)).
Definition ex_history : list (@hop N (N * N)) :=
  [ex_ins 1 10; ex_ins 2 20; ex_ins 1 11; ex_ins 3 30; ex_ins 4 40; ex_ins 5 50; ex_ins 6 60; HCount; HRemove 3; HFind 3;
   HFind 6; HFilter (fun e => N.even (fst e)); HEach; ex_ins 3 31; HFind 3; HRemove 9; HCount]%N.
Lemma ex_keyed : keyed ex_eq (fun k => k) fst.
Proof. intros p [k v]. unfold ex_eq. cbn. apply N.eqb_eq. Qed.
Example C09_nonvacuous :
  Forall (hop_ok (fun k => k) fst) ex_history /\ (peak ex_eq [] ex_history < 1610612741)%N /\
  hs_run ex_eq (fun k => k) (fun _ => 7%N) hs_new ex_history =
    Some [RElt (Some (1, 10)); RElt (Some (2, 20)); RElt (Some (1, 10)); RElt (Some (3, 30)); RElt (Some (4, 40));
          RElt (Some (5, 50)); RElt (Some (6, 60)); RCount 6; RElt (Some (3, 30)); RElt None; RElt (Some (6, 60)); RUnit;
          RList [(6, 60); (2, 20); (4, 40)]; RElt (Some (3, 31)); RElt (Some (3, 31)); RElt None; RCount 4]%N.
Proof.
  split; [|split].
  - unfold ex_history, ex_ins. repeat (apply Forall_cons; [cbn; auto|]). apply Forall_nil.
  - vm_compute. reflexivity.
  - vm_compute. reflexivity.
Qed.
Print Assumptions C09_hashset_is_a_finite_map.
