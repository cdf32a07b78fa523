(** C18, C19, C26, C106: the linked lists behind a body's arbiters and constraints *)
From Coq Require Import Arith Bool List Lia.
From Verif Require Import SpecThreads.
From Verif.Model Require Import Threads.
From Verif.Proofs Require Import ThreadsPf ThreadsPf2 ThreadsPf3.
Import ListNotations.
Local Open Scope nat_scope.

(** After every history of arbiters taken, met again, pushed and unthreaded, EachArbiter of a
    body visits the arbiters pushed and not unthreaded since that involve it, last pushed first. *)
Theorem C18_each_arbiter : forall os b fuel, proper_all none os ->
  let t := fold_left happens os none in
  length (live t) <= fuel ->
  each_arbiter fuel (fold_left exec os th_new) b = Some (filter (involves t b) (live t)) /\ NoDup (live t).
Proof.
  intros os b fuel P t F. pose proof (run_repr os th_new none new_repr P) as R. split; [exact (repr_walk _ t b fuel R F)|apply R].
Qed.
(** Unthreading takes exactly that arbiter out of the lists of its two bodies ... *)
Theorem C18_unthread : forall os x b fuel l, proper_all none os ->
  fst (pair_of (fold_left happens os none) x) <> snd (pair_of (fold_left happens os none) x) ->
  length (live (fold_left happens os none)) <= fuel ->
  each_arbiter fuel (fold_left exec os th_new) b = Some l ->
  each_arbiter fuel (unthread_both (fold_left exec os th_new) x) b = Some (filter (fun y => negb (y =? x)) l).
Proof.
  intros os x b fuel l P N F E. pose proof (run_repr os th_new none new_repr P) as R. set (t := fold_left happens os none) in *.
  rewrite (repr_walk _ t b fuel R F) in E. injection E as <-. rewrite <- inl_unthread.
  apply repr_walk; [now apply unthread_repr|]. cbn [happens live]. pose proof (filter_le (fun y => negb (y =? x)) (live t)). lia.
Qed.
(** ... and one that is in no list leaves every pointer as it is. *)
Theorem C18_unthread_idle : forall os x, proper_all none os -> ~ In x (live (fold_left happens os none)) ->
  let h := fold_left exec os th_new in let h' := unthread_both h x in
  (forall y, th_arb h' y = th_arb h y) /\ (forall b, th_list h' b = th_list h b).
Proof. intros os x P N. exact (unthread_off _ _ x (run_repr os th_new none new_repr P) N). Qed.

(** Pushing an arbiter that is still in the lists makes both of them circular: no traversal ends. *)
Theorem C26_pushed_twice_never_ends : forall os x b, proper_all none os ->
  let t := fold_left happens os none in
  In x (live t) -> involves t b x = true ->
  forall fuel, each_arbiter fuel (push_both (fold_left exec os th_new) x) b = None.
Proof. intros os x b P t Hx I. exact (push_live_forever _ t x (run_repr os th_new none new_repr P) Hx b I). Qed.

(** After every history of adding constraints between two different bodies and removing those
    that are there, no removal panics and EachConstraint visits exactly those that involve the body. *)
Theorem C19_each_constraint : forall ends os fuel, kproper_all ends [] os -> length os <= fuel ->
  exists h, kexec_all fuel (kh_new ends) os = Some h /\
  let l := fold_left khappens os [] in
  NoDup l /\ forall b, each_constraint fuel h b = Some (filter (fun c => (fst (ends c) =? b) || (snd (ends c) =? b)) l).
Proof.
  intros ends os fuel P F.
  assert (A : forall os, adds os <= length os) by (induction os0 as [|[c|c] r IH]; cbn; lia).
  destruct (krun ends os (kh_new ends) [] fuel (knew_repr ends) P) as (h & E & R); [cbn; specialize (A os); lia|].
  exists h. split; [exact E|]. split; [apply R|]. intros b. apply (krepr_walk ends h _ b fuel R).
  assert (G : forall os l, length (fold_left khappens os l) <= length l + adds os).
  { induction os0 as [|[c|c] r IH]; intros l; cbn [fold_left adds khappens]; [lia| |]; [specialize (IH (c :: l)); cbn in IH; lia|].
    specialize (IH (filter (fun d => negb (d =? c)) l)). pose proof (filter_le (fun d => negb (d =? c)) l). lia. }
  specialize (G os []). specialize (A os). cbn in G. lia.
Qed.

(** A constraint between a body and itself can be added, but RemoveConstraint dereferences nil. *)
Theorem C106_self_constraint_refuted : forall ends os h fuel c a, kproper_all ends [] os -> length os <= fuel ->
  kexec_all fuel (kh_new ends) os = Some h -> ends c = (a, a) -> ~ In c (fold_left khappens os []) ->
  forall fuel', remove_con fuel' (add_con h c) c = None.
Proof.
  intros ends os h fuel c a P F E Ec N fuel'.
  assert (A : forall os, adds os <= length os) by (induction os0 as [|[c'|c'] r IH]; cbn; lia).
  destruct (krun ends os (kh_new ends) [] fuel (knew_repr ends) P) as (h' & E' & R); [cbn; specialize (A os); lia|].
  assert (h' = h) by congruence. subst h'. now apply (self_constraint ends h (fold_left khappens os []) c a).
Qed.
(** So does removing a constraint a second time. *)
Theorem C106_removed_twice_refuted : forall ends os h fuel c, kproper_all ends [] os -> length os <= fuel ->
  kexec_all fuel (kh_new ends) os = Some h -> ~ In c (fold_left khappens os []) ->
  forall fuel', remove_con fuel' h c = None.
Proof.
  intros ends os h fuel c P F E N fuel'.
  assert (A : forall os, adds os <= length os) by (induction os0 as [|[c'|c'] r IH]; cbn; lia).
  destruct (krun ends os (kh_new ends) [] fuel (knew_repr ends) P) as (h' & E' & R); [cbn; specialize (A os); lia|].
  assert (h' = h) by congruence. subst h'. now apply (missing_constraint ends h (fold_left khappens os []) c).
Qed.

(** Three arbiters on three bodies, the middle one unthreaded, met again the other way round and pushed. *)
Definition some_history : list top :=
  [Fresh 5 0 1; Push 5; Fresh 6 1 2; Push 6; Fresh 7 2 0; Push 7; Unthread 6; Again 6 2 1; Push 6; Unthread 5].
Example C18_nonvacuous : proper_all none some_history /\ each_arbiter 9 (fold_left exec some_history th_new) 2 = Some [6; 7] /\
  each_arbiter 9 (fold_left exec some_history th_new) 0 = Some [7] /\ each_arbiter 9 (fold_left exec some_history th_new) 1 = Some [6].
Proof. split; [cbn; repeat split; try lia; intros H; repeat destruct H as [H|H]; try discriminate; assumption|]. repeat split. Qed.
Example C26_nonvacuous : In 7 (live (fold_left happens some_history none)) /\ involves (fold_left happens some_history none) 2 7 = true.
Proof. split; [vm_compute; auto|reflexivity]. Qed.
Definition some_ends (c : nat) : nat * nat := match c with 0 => (0, 1) | 1 => (1, 2) | 2 => (2, 0) | _ => (3, 3) end.
Definition some_kops : list kop := [AddK 0; AddK 1; AddK 2; RemK 1; AddK 1; RemK 0].
Example C19_nonvacuous : kproper_all some_ends [] some_kops /\ fold_left khappens some_kops [] = [1; 2] /\ some_ends 3 = (3, 3).
Proof. split; [cbn; repeat split; try lia; intros H; repeat destruct H as [H|H]; try discriminate; assumption|]. repeat split. Qed.

Print Assumptions C18_each_arbiter. Print Assumptions C18_unthread. Print Assumptions C18_unthread_idle. Print Assumptions C26_pushed_twice_never_ends.
Print Assumptions C19_each_constraint. Print Assumptions C106_self_constraint_refuted. Print Assumptions C106_removed_twice_refuted.
