(** C135: EachArbiter shows every arbiter of the body from the body's side. *)
From Coq Require Import Reals ZArith Bool List Arith Lia Lra.
From Verif Require Import Num Spec SpecThreads.
From Verif.Model Require Import Vector Body Solver Threads EachArb.
From Verif.Proofs Require Import RTac ThreadsPf ThreadsPf2 ThreadsPf3.
From Verif.Props Require Import ThreadProps.
Import ListNotations.
Local Open Scope nat_scope.

Section P.
Context {T : Type} `{Num T}.
Definition same (A A' : nat -> Arb T) : Prop := forall y, A y = A' y.
(** the callback reads: it depends on the arbiters, not on how they are stored, and leaves them as they were.  (EachArbiter itself is such a reader, see C135_nested.) *)
Definition reader {O} (f : (nat -> Arb T) -> nat -> (nat -> Arb T) * O) : Prop := forall A A' x, same A A' -> same (fst (f A x)) A /\ snd (f A x) = snd (f A' x).
(** the arbiters with [x] turned to the side of [b]: swapped exactly if [b] is its second body *)
Definition seen_from (t : threads) (b : nat) (A : nat -> Arb T) (x : nat) : nat -> Arb T :=
  fun y => if y =? x then with_swapped (A x) (snd (pair_of t x) =? b) else A y.
Lemma put_same (A : nat -> Arb T) x v : same (put (put A x v) x (with_swapped (put A x v x) (ar_swapped (A x)))) (put A x (with_swapped v (ar_swapped (A x)))).
Proof. intros y. unfold put. rewrite Nat.eqb_refl. destruct (y =? x); reflexivity. Qed.
Lemma with_same (a : Arb T) : with_swapped a (ar_swapped a) = a. Proof. destruct a; reflexivity. Qed.
Lemma loop_walk {O} (f : (nat -> Arb T) -> nat -> (nat -> Arb T) * O) : reader f -> forall fuel h b A0 A cur notes l, same A A0 -> walk_from fuel h b cur = Some l ->
  exists A', each_loop f fuel h b A cur notes = Some (A', notes ++ map (fun x => (x, snd (f (put A0 x (with_swapped (A0 x) (b =? t_b (th_arb h x)))) x))) l) /\ same A' A0.
Proof.
  intros R. induction fuel as [|fuel IH]; intros h b A0 A cur notes l S Wk; destruct cur as [x|]; cbn [walk_from each_loop] in *; try discriminate;
    try (injection Wk as <-; exists A; rewrite app_nil_r; auto; fail).
  destruct (walk_from fuel h b (arb_next h x b)) as [l'|] eqn:E; [|discriminate]. injection Wk as <-.
  set (V := put A x _). set (V0 := put A0 x (with_swapped (A0 x) (b =? t_b (th_arb h x)))).
  assert (SV : same V V0) by (intros y; unfold V, V0, put; rewrite (S x); destruct (y =? x); auto).
  destruct (R V V0 x SV) as [F1 F2]. destruct (f V x) as [A1 o] eqn:Ef. cbn [fst snd] in F1, F2.
  assert (SA : same (put A1 x (with_swapped (A1 x) (ar_swapped (A x)))) A0).
  { intros y. unfold put at 1. destruct (Nat.eqb_spec y x) as [->|N]; [rewrite (F1 x); unfold V, put; rewrite Nat.eqb_refl, <- (S x); destruct (A x); reflexivity|].
    rewrite (F1 y). unfold V, put. apply Nat.eqb_neq in N. rewrite N. apply S. }
  destruct (IH h b A0 _ (arb_next h x b) (notes ++ [(x, o)]) l' SA E) as (A' & E' & S'). exists A'. split; [|exact S']. rewrite E'. cbn [map]. rewrite <- app_assoc. cbn [app]. now rewrite F2.
Qed.
(** after every history of the arbiters (C18): each arbiter of the body is visited once, last pushed first, turned to the body's side; afterwards all arbiters are as before *)
Theorem C135_each_arbiter : forall {O} (f : (nat -> Arb T) -> nat -> (nat -> Arb T) * O) os b A fuel, reader f -> proper_all none os -> let t := fold_left happens os none in length (live t) <= fuel ->
  exists A', each_arbiter_cb f fuel (fold_left exec os th_new) b A = Some (A', map (fun x => (x, snd (f (seen_from t b A x) x))) (filter (involves t b) (live t))) /\ same A' A.
Proof.
  intros O f os b A fuel R P t L. destruct (C18_each_arbiter os b fuel P L) as [E _]. fold t in E. unfold each_arbiter in E.
  destruct (loop_walk f R fuel _ b A A (th_list (fold_left exec os th_new) b) [] _ (fun _ => eq_refl) E) as (A' & EA & S). exists A'. split; [|exact S]. unfold each_arbiter_cb. rewrite EA. cbn [app]. f_equal. f_equal. apply map_ext. intros x. f_equal.
  apply R. intros y. unfold put, seen_from. destruct (y =? x) eqn:Q; [|reflexivity]. f_equal.
  pose proof (run_repr os th_new none new_repr P) as RP. fold t in RP. rewrite Nat.eqb_sym. f_equal. pose proof (p_bodies _ _ RP x) as Eb. rewrite <- Eb. reflexivity.
Qed.
(** a callback may call EachArbiter, on the same or another body: that is a reader again *)
Theorem C135_nested : forall {O} (f : (nat -> Arb T) -> nat -> (nat -> Arb T) * O) os (which : nat -> nat) fuel, reader f -> proper_all none os -> length (live (fold_left happens os none)) <= fuel ->
  reader (fun A x => match each_arbiter_cb f fuel (fold_left exec os th_new) (which x) A with Some (A', notes) => (A', Some notes) | None => (A, None) end).
Proof.
  intros O f os which fuel R P L A A' x S. destruct (C135_each_arbiter f os (which x) A fuel R P L) as (B & -> & SB). destruct (C135_each_arbiter f os (which x) A' fuel R P L) as (B' & -> & SB'). cbn [fst snd]. split; [exact SB|].
  f_equal. apply map_ext. intros z. f_equal. apply R. intros y. unfold seen_from. rewrite !S. reflexivity.
Qed.
(** what the callback is shown: [sa], [sb] are the two shapes of the arbiter, on its two bodies *)
Theorem C135_own_side_first : forall os b A x (body : nat -> nat) sa sb, proper_all none os -> let t := fold_left happens os none in In x (live t) -> involves t b x = true ->
  body sa = fst (pair_of t x) -> body sb = snd (pair_of t x) -> let other := if snd (pair_of t x) =? b then fst (pair_of t x) else snd (pair_of t x) in
  arb_bodies body (seen_from t b A x x) sa sb = (b, other) /\ other <> b.
Proof.
  intros os b A x body sa sb P t L I Ea Eb other. unfold seen_from. rewrite Nat.eqb_refl. unfold arb_bodies, arb_shapes. cbn [ar_swapped with_swapped].
  pose proof (run_repr os th_new none new_repr P) as RP. fold t in RP. pose proof (p_diff _ _ RP x L) as D.
  unfold other, involves in *. destruct (Nat.eqb_spec (snd (pair_of t x)) b) as [E|E].
  - rewrite Ea, Eb, E. split; [reflexivity|congruence].
  - rewrite orb_false_r in I. apply Nat.eqb_eq in I. rewrite Ea, Eb, I. split; [reflexivity|exact E].
Qed.
End P.
Local Open Scope R_scope.
(** the callback run from the one body and the callback run from the other are shown opposite normals and opposite impulses, and the same contact points with the sides exchanged *)
Theorem C135_two_views : forall os b c (A : nat -> Arb R) x (p q : Body R), proper_all none os -> let t := fold_left happens os none in In x (live t) -> involves t b x = true -> involves t c x = true -> b <> c ->
  let v := seen_from t b A x x in let w := seen_from t c A x x in
  arb_normal w = vneg (arb_normal v) /\ arb_total_impulse w = vneg (arb_total_impulse v) /\
  fst (arb_point_set w p q) = arb_normal w /\ snd (arb_point_set w p q) = map (fun k => match k with (k1, k2, d) => (k2, k1, d) end) (snd (arb_point_set v p q)).
Proof.
  intros os b c A x p q P t L Ib Ic N v w. pose proof (run_repr os th_new none new_repr P) as RP. fold t in RP. pose proof (p_diff _ _ RP x L) as D.
  assert (E : (snd (pair_of t x) =? c)%nat = negb (snd (pair_of t x) =? b)%nat).
  { unfold involves in *. rewrite orb_true_iff, !Nat.eqb_eq in Ib, Ic. destruct (Nat.eqb_spec (snd (pair_of t x)) c), (Nat.eqb_spec (snd (pair_of t x)) b); cbn [negb]; intuition congruence. }
  unfold v, w, seen_from. rewrite Nat.eqb_refl, E. generalize (snd (pair_of t x) =? b)%nat. intros s. clear.
  destruct (A x) as [e u sv n cs sw st]. unfold arb_normal, arb_total_impulse, arb_point_set, arb_count, with_swapped. cbn [ar_n ar_contacts ar_state ar_swapped].
  destruct s; cbn [negb fst snd]; (split; [|split; [|split]]); try reflexivity; try (destruct n; unfold vneg, vmult, none_; cbn [vx vy]; unR; f_equal; lra); try (rewrite map_map; apply map_ext; intros k; reflexivity).
  all: try match goal with |- context [fold_left ?f ?l ?z] => destruct (fold_left f l z) as [z1 z2] end; try destruct n as [n1 n2]; unfold vneg, vmult, none_; cbn [vx vy]; unR; f_equal; lra.
Qed.
(** a history with arbiter 7 of bodies 0 and 2; the callback reads who comes first *)
Definition some_arbs : nat -> Arb R := fun _ => mkArb 0 0 (mkV 0 0) (mkV 1 0) [] false FirstCollision.
Definition first_body (t : threads) (A : nat -> Arb R) (x : nat) : (nat -> Arb R) * nat := (A, fst (arb_bodies (fun s => s) (A x) (fst (pair_of t x)) (snd (pair_of t x)))).
Example C135_nonvacuous : let t := fold_left happens some_history none in proper_all none some_history /\ reader (first_body t) /\ (length (live t) <= 9)%nat /\
  option_map snd (each_arbiter_cb (first_body t) 9 (fold_left exec some_history th_new) 2%nat some_arbs) = Some [(6, 2); (7, 2)]%nat /\
  option_map snd (each_arbiter_cb (first_body t) 9 (fold_left exec some_history th_new) 0%nat some_arbs) = Some [(7, 0)]%nat.
Proof.
  intros t. split; [exact (proj1 C18_nonvacuous)|]. split; [|split; [vm_compute; lia|split; vm_compute; reflexivity]].
  intros A A' x S. split; [intros y; reflexivity|]. unfold first_body. cbn [snd]. now rewrite (S x).
Qed.

Print Assumptions C135_each_arbiter. Print Assumptions C135_nested. Print Assumptions C135_own_side_first. Print Assumptions C135_two_views.
