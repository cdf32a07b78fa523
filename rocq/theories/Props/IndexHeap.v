(** Properties C117 and C118: the bounding-box tree with its pointers - parent pointers, free lists of nodes and
    pairs, doubly linked pair lists - over all histories of operations, in exact binary64. *)
From Coq Require Import Reals ZArith Bool List Arith Lia Permutation.
From Verif Require Import Num Spec SpecIndex SpecIndexHeap.
From Verif.Model Require Import Vector BB BBTree BBTreeHeap.
From Verif.Proofs Require Import BBTreeTop FloatMono BBHeapTop BBHeapRun.
From Verif.Props Require Import Index.
Import ListNotations.
Local Open Scope nat_scope.

(** No nil pointer is followed and every loop ends, whatever was done before. *)
Theorem C117_pointers_never_fail : forall (e0 : env F) (h : list (op F)), valid e0 h -> exists s, hrun e0 h = Some s.
Proof. intros e0 h Hv. destruct (hrun_ok e0 h Hv) as (s & E & _). eauto. Qed.

(** A query of the pointer tree ends and reports every object whose box, when last indexed, meets the
    query box, no object twice, and nothing that is not in the tree. *)
Theorem C117_pointer_query : forall (e0 : env F) (h : list (op F)) (q : BB F) d, valid e0 h ->
  exists s r, hrun e0 h = Some s /\ hx_query s d q = Some r /\ NoDup r /\
  (forall id b, In id (members d h) -> indexed e0 d id h = Some b -> bb_intersects b q = true -> In id r) /\
  (forall id, In id r -> In id (members d h)).
Proof.
  intros e0 h q d Hv. destruct (hrun_ok e0 h Hv) as (s & E & Hr). exists s, (ix_query (get_tree d (run e0 h)) q).
  destruct (query_spec e0 h q Hv d) as (A & B & C). split; [exact E|]. split; [eapply query_rel; exact Hr|]. split; [exact A|]. split; [exact B|]. intros id Hi. now apply C.
Qed.

(** The step's query on the pointer trees reports every pair of moving objects, and every pair of a
    moving and a static object, whose boxes meet: exactly once; no pair twice; nothing with itself. *)
Theorem C117_pointer_pairs_once : forall (e0 : env F) (h : list (op F)) (order : list nat),
  valid e0 (OReindexQuery order :: h) ->
  exists s s' rep, hrun e0 h = Some s /\ hx_reindex_query (env_now e0 h) order s = Some (s', rep) /\
  (forall i j, In i (members true h) -> In j (members true h) -> i <> j ->
     bb_intersects (cur (env_now e0 h) i) (cur (env_now e0 h) j) = true -> times i j rep = 1) /\
  (forall i j b, In i (members true h) -> In j (members false h) -> indexed e0 false j h = Some b ->
     bb_intersects (cur (env_now e0 h) i) b = true -> times i j rep = 1) /\
  (forall i j, i <> j -> times i j rep <= 1) /\
  (forall i j, In (i, j) rep -> i <> j /\ In i (members true h ++ members false h) /\ In j (members true h ++ members false h) /\
     (In i (members true h) \/ In j (members true h))).
Proof.
  intros e0 h order Hv. pose proof Hv as (_ & Hv'). destruct (hrun_ok e0 h Hv') as (s & E & Hr).
  destruct (reindex_query_rel _ _ _ (env_now e0 h) order s _ Hr (Nat.le_max_l _ _) (Nat.le_max_r _ _)) as (s' & E' & _).
  destruct (reindex_reports e0 h order Hv) as (A & B & C & D).
  exists s, s', (snd (ix_reindex_query (env_now e0 h) order (run e0 h))). do 5 (split; [assumption|]).
  intros i j H. destruct (D i j H) as (D1 & D2 & _). split; [exact D1|]. rewrite !in_app_iff. tauto.
Qed.

(** Ray queries of the pointer tree visit the objects the tree on values visits, in the same order,
    whatever the callback does (so C14 holds of it). *)
Theorem C117_pointer_segment_query : forall (S : Type) (e0 : env F) (h : list (op F)) d (f : S -> nat -> S * F) a b st t_exit, valid e0 h ->
  exists s, hrun e0 h = Some s /\ hx_segment_query s d f a b st t_exit = Some (ix_segment_query f (get_tree d (run e0 h)) a b st t_exit).
Proof.
  intros S e0 h d f a b st te Hv. destruct (hrun_ok e0 h Hv) as (s & E & Hr). exists s. split; [exact E|]. eapply seg_query_rel; exact Hr.
Qed.

(** C118: memory does not grow with the length of the history: the nodes and pairs made so far are at
    most what the largest populations so far need, and one batch of the allocator per tree. *)
Theorem C118_memory_bounded : forall (e0 : env F) (h : list (op F)), valid e0 h ->
  exists s, hrun e0 h = Some s /\
  nfresh (hn s) <= 2 * (peak (count true) h + peak (count false) h) + 2 * (POOLED_BUFFER_SIZE + 1) + 1 /\
  pfresh (hp s) <= peak couples h + (POOLED_BUFFER_SIZE + 1).
Proof. intros e0 h Hv. destruct (hrun_memory e0 h Hv) as (s & E & A & B). exists s. split; [exact E|]. lia. Qed.
(** Inserting and removing the same object for ever needs three batches at most. *)
Fixpoint churn (n : nat) : list (op F) := match n with 0 => [] | S n => ORemove true 7 :: OInsert true 7 :: churn n end.
Example C118_nonvacuous : forall n (e0 : env F), env_ok e0 -> valid e0 (churn n) /\
  exists s, hrun e0 (churn n) = Some s /\ nfresh (hn s) <= 3 * (POOLED_BUFFER_SIZE + 1) /\ pfresh (hp s) <= POOLED_BUFFER_SIZE + 2.
Proof.
  intros n e0 He. assert (M : members true (churn n) = [] /\ members false (churn n) = []).
  { induction n as [|n (IH1 & IH2)]; cbn [churn members Bool.eqb remove]; [auto|]. rewrite IH1, IH2. split; reflexivity. }
  assert (V : valid e0 (churn n)).
  { clear M. induction n as [|n IH]; [exact He|]. cbn [churn valid]. split; [cbn; auto|]. split; [|exact IH]. cbn [allowed].
    assert (M : members true (churn n) = [] /\ members false (churn n) = []).
    { clear. induction n as [|n (IH1 & IH2)]; cbn [churn members Bool.eqb remove]; [auto|]. rewrite IH1, IH2. split; reflexivity. }
    destruct M as (-> & ->). cbn. auto. }
  assert (K : peak (count true) (churn n) <= 1 /\ peak (count false) (churn n) <= 0 /\ peak couples (churn n) <= 1).
  { clear. induction n as [|n (IH1 & IH2 & IH3)]; [cbn; lia|]. assert (M : members true (churn n) = [] /\ members false (churn n) = []).
    { clear. induction n as [|n (IH1 & IH2)]; cbn [churn members Bool.eqb remove]; [auto|]. rewrite IH1, IH2. split; reflexivity. }
    destruct M as (M1 & M2). cbn [churn peak]. unfold couples, count in *. cbn [members Bool.eqb]. rewrite M1, M2. cbn [length remove]. destruct (Nat.eq_dec 7 7) as [_|E]; [|now contradiction E]. cbn [length]. lia. }
  split; [exact V|]. destruct (C118_memory_bounded e0 _ V) as (s & E & A & B). exists s. split; [exact E|].
  assert (H : POOLED_BUFFER_SIZE = 1024) by reflexivity. rewrite H in *. clear H. lia.
Qed.

(** The history of Props/Index.v, on pointers. *)
Example C117_nonvacuous : valid (ex_env 0) (OReindexQuery [0; 1; 2] :: OMove (ex_env 20) :: ex_history).
Proof. exact C12_nonvacuous. Qed.
Definition run_query (e0 : env F) (h : list (op F)) (order : list nat) : option (list (nat * nat)) :=
  match hrun e0 h with
  | Some s => match hx_reindex_query (env_now e0 h) order s with Some (_, rep) => Some rep | None => None end
  | None => None
  end.
Example C117_nonvacuous_reports :
  run_query (ex_env 0) (tl ex_history) [2; 1; 0] = Some [(1, 3); (1, 0); (3, 0)] /\
  run_query (ex_env 0) (OMove (ex_env 20) :: ex_history) [0; 1; 2] = Some [(3, 0)].
Proof. split; vm_compute; reflexivity. Qed.
Print Assumptions C117_pointers_never_fail.
Print Assumptions C117_pointer_query.
Print Assumptions C117_pointer_pairs_once.
Print Assumptions C117_pointer_segment_query.

Print Assumptions C118_memory_bounded.
