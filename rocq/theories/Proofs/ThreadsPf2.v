(** Histories of pushes and unthreads *)
From Coq Require Import Arith Bool List Lia.
From Verif Require Import SpecThreads.
From Verif.Model Require Import Threads.
From Verif.Proofs Require Import ThreadsPf.
Import ListNotations.
Local Open Scope nat_scope.

Definition same (h h' : THeap) : Prop := (forall y, th_arb h' y = th_arb h y) /\ (forall b, th_list h' b = th_list h b).
Lemma same_refl h : same h h.
Proof. split; reflexivity. Qed.
Lemma same_trans h1 h2 h3 : same h1 h2 -> same h2 h3 -> same h1 h3.
Proof. intros (A & B) (C & D). split; intros; [rewrite C|rewrite D]; auto. Qed.
Lemma same_thread h h' x b : same h h' -> thread h' x b = thread h x b.
Proof. intros (A & _). unfold thread. now rewrite A. Qed.
Lemma same_repr h h' t : same h h' -> repr h t -> repr h' t.
Proof.
  intros S [B Nd Df Ls Off]. constructor; auto.
  - intros x. rewrite (proj1 S). apply B.
  - intros b. rewrite (proj2 S). destruct (Ls b) as (L & D). split; [exact L|]. apply (dll_ext h); [|exact D]. intros x _. now apply same_thread.
  - intros x N. rewrite (proj1 S). now apply Off.
Qed.

(** unthreading what is in no list *)
Lemma set_same h x b r : thread h x b = r -> same h (set_thread h x b r).
Proof.
  intros E. split; [|reflexivity]. intros y. unfold set_thread. cbn. unfold put. destruct (y =? x) eqn:Q; [|reflexivity]. apply Nat.eqb_eq in Q. subst y.
  unfold thread in E. destruct (t_a (th_arb h x) =? b); subst r; now destruct (th_arb h x).
Qed.
Lemma unthread_absent h x b : thread h x b = nil_thr -> th_list h b <> Some x -> same h (unthread_helper h x b).
Proof.
  intros T N. unfold unthread_helper. rewrite T. cbn [th_next th_prev nil_thr].
  assert (E : match th_list h b with Some y => y =? x | None => false end = false).
  { destruct (th_list h b) as [y|]; [|reflexivity]. apply Nat.eqb_neq. intros ->. now apply N. }
  rewrite E. unfold set_prev, set_next. rewrite T. cbn [th_prev nil_thr].
  assert (S1 : same h (set_thread h x b (mkThr None None))) by (apply set_same; rewrite T; reflexivity).
  apply (same_trans _ _ _ S1). apply set_same. rewrite thread_set, Nat.eqb_refl, Bool.eqb_reflx. cbn. reflexivity.
Qed.
Lemma head_live h t b x : repr h t -> th_list h b = Some x -> In x (live t).
Proof.
  intros R E. destruct (p_list h t R b) as (L & _). rewrite E in L. assert (H : In x (inl t b)) by (destruct (inl t b); [discriminate|]; injection L as ->; now left).
  now apply inl_in in H.
Qed.
Lemma unthread_off h t x : repr h t -> ~ In x (live t) -> same h (unthread_both h x).
Proof.
  intros R N. unfold unthread_both.
  assert (S1 : same h (unthread_helper h x (t_a (th_arb h x)))).
  { apply unthread_absent; [now apply (off_thread h t)|]. intros E. apply N. now apply (head_live h t (t_a (th_arb h x))). }
  apply (same_trans _ _ _ S1). pose proof (same_repr _ _ _ S1 R) as R1.
  apply unthread_absent; [now apply (off_thread _ t)|]. intros E. apply N. now apply (head_live _ t (t_b (th_arb h x))) in E.
Qed.

Lemma filter_comm {A} (f g : A -> bool) l : filter f (filter g l) = filter g (filter f l).
Proof. induction l as [|x r IH]; [reflexivity|]. cbn. destruct (f x) eqn:F; destruct (g x) eqn:G; cbn; rewrite ?F, ?G, ?IH; reflexivity. Qed.
Lemma filter_id {A} (f : A -> bool) l : (forall x, In x l -> f x = true) -> filter f l = l.
Proof. induction l as [|x r IH]; intros H; [reflexivity|]. cbn. rewrite (H x (or_introl eq_refl)), IH; [reflexivity|]. intros y Hy. apply H. now right. Qed.
Lemma filter_out x l : ~ In x l -> filter (fun y => negb (y =? x)) l = l.
Proof. intros N. apply filter_id. intros y Hy. apply negb_true_iff, Nat.eqb_neq. intros ->. contradiction. Qed.
Lemma filter_split x l1 l2 : NoDup (l1 ++ x :: l2) -> filter (fun y => negb (y =? x)) (l1 ++ x :: l2) = l1 ++ l2.
Proof.
  intros Nd. pose proof (NoDup_remove_2 _ _ _ Nd) as N. rewrite filter_app. cbn. rewrite Nat.eqb_refl. cbn.
  rewrite !filter_out; [reflexivity|intros H; apply N, in_or_app; now right|intros H; apply N, in_or_app; now left].
Qed.
Lemma inl_unthread t x b : inl (happens t (Unthread x)) b = filter (fun y => negb (y =? x)) (inl t b).
Proof. unfold inl. cbn [happens live]. change (involves (mkThreads (pair_of t) (filter (fun y => negb (y =? x)) (live t))) b) with (involves t b). apply filter_comm. Qed.

Lemma unthread_on h t x : repr h t -> In x (live t) -> repr (unthread_both h x) (happens t (Unthread x)).
Proof.
  intros R Hx. pose proof R as [B Nd Df Ls Off]. pose proof (Df x Hx) as Nab.
  set (a := t_a (th_arb h x)). set (b := t_b (th_arb h x)).
  assert (Px : pair_of t x = (a, b)) by (symmetry; apply B). rewrite Px in Nab. cbn [fst snd] in Nab.
  assert (Ia : involves t a x = true) by (unfold involves; rewrite Px; cbn; now rewrite Nat.eqb_refl).
  assert (Ib : involves t b x = true) by (unfold involves; rewrite Px; cbn; rewrite Nat.eqb_refl; apply orb_true_r).
  assert (Io : forall c, c <> a -> c <> b -> involves t c x = false).
  { intros c Na Nb. unfold involves. rewrite Px. cbn. rewrite (proj2 (Nat.eqb_neq a c)), (proj2 (Nat.eqb_neq b c)) by congruence. reflexivity. }
  assert (Ndl : forall c, NoDup (inl t c)) by (intros c; now apply NoDup_filter).
  assert (Xa : In x (inl t a)) by (apply inl_in; now split). assert (Xb : In x (inl t b)) by (apply inl_in; now split).
  apply in_split in Xa, Xb. destruct Xa as (la & ra & Ea). destruct Xb as (lb & rb & Eb).
  pose proof (Ndl a) as Na. pose proof (Ndl b) as Nb. rewrite Ea in Na. rewrite Eb in Nb.
  unfold unthread_both. fold a. fold b. destruct (Ls a) as (La & Da). destruct (Ls b) as (Lb & Db). rewrite Ea in La, Da. rewrite Eb in Lb, Db.
  destruct (unthread_one h t a x la ra B) as (B1 & L1 & D1 & X1 & Lo1 & To1 & Ao1); auto.
  { intros y Hy. rewrite <- Ea in Hy. now apply inl_in in Hy. }
  set (h1 := unthread_helper h x a) in *.
  destruct (unthread_one h1 t b x lb rb B1) as (B2 & L2 & D2 & X2 & Lo2 & To2 & Ao2); auto.
  { intros y Hy. rewrite <- Eb in Hy. now apply inl_in in Hy. }
  { rewrite Lo1 by congruence. exact Lb. }
  { apply (dll_ext h); [|exact Db]. intros y Hy. apply To1; [congruence|]. rewrite <- Eb in Hy. now apply inl_in in Hy. }
  set (h2 := unthread_helper h1 x b) in *.
  assert (Fa : inl (happens t (Unthread x)) a = la ++ ra) by (rewrite inl_unthread, Ea; now apply filter_split).
  assert (Fb : inl (happens t (Unthread x)) b = lb ++ rb) by (rewrite inl_unthread, Eb; now apply filter_split).
  constructor.
  - exact B2.
  - cbn. now apply NoDup_filter.
  - intros y Hy. cbn [happens live pair_of] in *. apply filter_In in Hy. now apply Df.
  - intros c. destruct (Nat.eq_dec c a) as [->|Nca]; [|destruct (Nat.eq_dec c b) as [->|Ncb]].
    + rewrite Fa. split; [rewrite Lo2 by congruence; exact L1|]. apply (dll_ext h1); [|exact D1]. intros y Hy. apply To2; [congruence|].
      rewrite <- Fa, inl_unthread in Hy. apply filter_In in Hy. destruct Hy as (Hy & _). now apply inl_in in Hy.
    + rewrite Fb. now split.
    + assert (Ec : inl (happens t (Unthread x)) c = inl t c).
      { rewrite inl_unthread. apply filter_out. intros Hy. apply inl_in in Hy. rewrite Io in Hy by assumption. now destruct Hy. }
      rewrite Ec. destruct (Ls c) as (Lc & Dc). split; [rewrite Lo2, Lo1 by congruence; exact Lc|].
      apply (dll_ext h); [|exact Dc]. intros y Hy. apply inl_in in Hy. rewrite To2, To1 by (congruence || apply Hy). reflexivity.
  - intros y Ny. cbn [happens live] in Ny. destruct (Nat.eq_dec y x) as [->|Nyx].
    + assert (Hxa : thread h2 x a = nil_thr) by (rewrite To2; auto).
      destruct (set_thread_bodies h x a nil_thr x) as (_ & _).
      assert (A2 : t_a (th_arb h2 x) = a) by (specialize (B2 x); rewrite Px in B2; now injection B2).
      unfold thread in Hxa, X2. rewrite A2 in Hxa, X2. rewrite Nat.eqb_refl in Hxa. rewrite (proj2 (Nat.eqb_neq a b)) in X2 by exact Nab. now split.
    + assert (Nyl : ~ In y (live t)).
      { intros Hy. apply Ny. apply filter_In. split; [exact Hy|]. now apply negb_true_iff, Nat.eqb_neq. }
      unfold h2. rewrite Ao2 by (rewrite <- Eb; intros Hy; apply inl_in in Hy; now apply Nyl).
      unfold h1. rewrite Ao1 by (rewrite <- Ea; intros Hy; apply inl_in in Hy; now apply Nyl). now apply Off.
Qed.

Lemma unthread_repr h t x : repr h t -> repr (unthread_both h x) (happens t (Unthread x)).
Proof.
  intros R. destruct (in_dec Nat.eq_dec x (live t)) as [Hx|Hx]; [now apply unthread_on|].
  assert (E : happens t (Unthread x) = t) by (cbn; rewrite filter_out by exact Hx; now destruct t).
  rewrite E. apply (same_repr h); [now apply (unthread_off h t)|exact R].
Qed.

(** changing the bodies of an arbiter that is in no list *)
Lemma pair_repr h h' t x a b : repr h t -> ~ In x (live t) ->
  (forall y, y <> x -> th_arb h' y = th_arb h y) -> th_arb h' x = mkTArb a b nil_thr nil_thr -> (forall c, th_list h' c = th_list h c) ->
  repr h' (happens t (Fresh x a b)).
Proof.
  intros [B Nd Df Ls Off] N O X L. set (t' := happens t (Fresh x a b)).
  assert (Pp : forall y, y <> x -> pair_of t' y = pair_of t y) by (intros y Ny; cbn; now rewrite (proj2 (Nat.eqb_neq y x))).
  assert (Nx : forall y, In y (live t) -> y <> x) by (intros y Hy ->; contradiction).
  assert (Ei : forall c, inl t' c = inl t c).
  { intros c. unfold inl. change (live t') with (live t). apply filter_ext_in. intros y Hy. unfold involves. rewrite Pp by now apply Nx. reflexivity. }
  constructor.
  - intros y. destruct (Nat.eq_dec y x) as [->|Ny]; [rewrite X; cbn; now rewrite Nat.eqb_refl|]. rewrite O, Pp by exact Ny. apply B.
  - exact Nd.
  - intros y Hy. rewrite Pp by now apply Nx. now apply Df.
  - intros c. rewrite Ei, L. destruct (Ls c) as (Lc & Dc). split; [exact Lc|]. apply (dll_ext h); [|exact Dc].
    intros y Hy. apply inl_in in Hy. unfold thread. now rewrite O by (now apply Nx).
  - intros y Ny. destruct (Nat.eq_dec y x) as [->|Nyx]; [rewrite X; now split|]. rewrite O by exact Nyx. now apply Off.
Qed.

Lemma exec_repr h t o : repr h t -> proper t o -> repr (exec h o) (happens t o).
Proof.
  intros R P. destruct o as [x a b|x a b|x|x]; cbn [exec].
  - apply (pair_repr h); [exact R|apply P| | |]; intros; unfold init_arb; cbn; [now apply put_ne|apply put_eq|reflexivity].
  - change (happens t (Again x a b)) with (happens t (Fresh x a b)).
    apply (pair_repr h); [exact R|apply P| | |]; intros; unfold rebody; cbn; [now apply put_ne|rewrite put_eq|reflexivity].
    destruct (p_off h t R x (proj2 P)) as (-> & ->). reflexivity.
  - now apply push_repr.
  - now apply unthread_repr.
Qed.
Lemma new_repr : repr th_new none.
Proof.
  constructor; cbn; auto using NoDup_nil; try reflexivity; try contradiction.
  - intros x. reflexivity.
Qed.
Theorem run_repr : forall os h t, repr h t -> proper_all t os -> repr (fold_left exec os h) (fold_left happens os t).
Proof. induction os as [|o os IH]; intros h t R P; [exact R|]. destruct P as (P & Q). apply IH; [now apply exec_repr|exact Q]. Qed.

Lemma repr_walk h t b fuel : repr h t -> length (live t) <= fuel -> each_arbiter fuel h b = Some (inl t b).
Proof.
  intros R L. destruct (p_list h t R b) as (E & D). unfold each_arbiter. rewrite E. apply (walk_dll h b (inl t b) None); [|exact D].
  unfold inl. enough (length (filter (involves t b) (live t)) <= length (live t)) by lia.
  clear. induction (live t) as [|x r IH]; [apply le_n|]. cbn. destruct (involves t b x); cbn; lia.
Qed.

(** ** pushing what is already in the list: the walk never ends *)
Lemma walk_closed h b (P : nat -> Prop) : (forall x, P x -> exists y, arb_next h x b = Some y /\ P y) ->
  forall fuel x, P x -> walk_from fuel h b (Some x) = None.
Proof.
  intros C. induction fuel as [|fuel IH]; intros x Hx; [reflexivity|]. destruct (C x Hx) as (y & E & Hy). cbn [walk_from]. rewrite E, IH by exact Hy. reflexivity.
Qed.

Lemma dll_in_next h b x l2 : forall l1 prev, dll h b prev (l1 ++ x :: l2) -> forall y, In y l1 -> exists z, th_next (thread h y b) = Some z /\ In z (l1 ++ [x]).
Proof.
  induction l1 as [|w r IH]; intros prev D y Hy; [destruct Hy|]. cbn [app dll] in D. destruct D as (A & D). destruct Hy as [<-|Hy].
  - rewrite A. cbn [th_next]. destruct r as [|z r]; cbn; [exists x; auto|exists z; auto].
  - destruct (IH (Some w) D y Hy) as (z & E & Hz). exists z. split; [exact E|now right].
Qed.

Lemma next_set_prev h y b p x : th_next (thread (set_prev h y b p) x b) = th_next (thread h x b).
Proof.
  unfold set_prev. rewrite thread_set. destruct (x =? y) eqn:E; [|reflexivity]. apply Nat.eqb_eq in E. subst y. rewrite Bool.eqb_reflx. reflexivity.
Qed.

(** one PushArbiter of an arbiter already in the body's list closes a circle *)
Lemma push_twice h b x l1 l2 : th_list h b = hd_error (l1 ++ x :: l2) -> dll h b None (l1 ++ x :: l2) -> NoDup (l1 ++ x :: l2) ->
  let h' := push_arbiter h b x in
  th_list h' b = Some x /\ (forall y, In y (l1 ++ [x]) -> exists z, arb_next h' y b = Some z /\ In z (l1 ++ [x])).
Proof.
  intros L D Nd h'. assert (Q : exists f, th_list h b = Some f /\ In f (l1 ++ [x])) by (destruct l1 as [|f r]; [exists x|exists f]; split; auto; now left).
  destruct Q as (f & Ef & If). unfold h', push_arbiter. rewrite Ef. split; [cbn; now rewrite put_eq|].
  intros y Hy. rewrite arb_next_thread. change (thread (set_list ?k b (Some x)) y b) with (thread k y b). rewrite next_set_prev.
  unfold set_next. rewrite thread_set. destruct (y =? x) eqn:E; [rewrite Bool.eqb_reflx; cbn; now exists f|]. cbn [andb].
  apply Nat.eqb_neq in E. apply in_app_iff in Hy. destruct Hy as [Hy|[<-|[]]]; [|congruence]. exact (dll_in_next h b x l2 l1 None D y Hy).
Qed.

Definition fcycle h b x := exists P : nat -> Prop, th_list h b = Some x /\ P x /\ forall y, P y -> exists z, arb_next h y b = Some z /\ P z.
Lemma cycle_forever h b x : fcycle h b x -> forall fuel, each_arbiter fuel h b = None.
Proof. intros (P & E & Px & C) fuel. unfold each_arbiter. rewrite E. now apply (walk_closed h b P). Qed.

Lemma push_other h t b x : bodies h t -> involves t b x = true -> (forall y, th_list h b = Some y -> involves t b y = true) ->
  let h' := push_arbiter h b x in
  bodies h' t /\ (forall c, c <> b -> th_list h' c = th_list h c) /\ (forall c y, c <> b -> involves t c y = true -> thread h' y c = thread h y c).
Proof.
  intros B Ix If h'. unfold h', push_arbiter. clear h'.
  assert (G : forall k z r c y, bodies k t -> involves t b z = true -> c <> b -> involves t c y = true -> thread (set_thread k z b r) y c = thread k y c).
  { intros k z r c y Bk Iz N I. rewrite thread_set. destruct (y =? z) eqn:E; [|reflexivity]. apply Nat.eqb_eq in E. subst z. cbn [andb].
    rewrite eqb_diff; [reflexivity|]. apply (side_diff k t); auto. }
  assert (B1 : forall v, bodies (set_next h x b v) t) by (intros v; now apply set_thread_bodies_of).
  destruct (th_list h b) as [f|].
  - split; [now apply set_thread_bodies_of|]. split; [intros c N; cbn; now apply put_ne|]. intros c y N I.
    change (thread (set_list ?k b (Some x)) y c) with (thread k y c). unfold set_prev. rewrite G; auto. unfold set_next. now rewrite G.
  - split; [now apply B1|]. split; [intros c N; cbn; now apply put_ne|]. intros c y N I.
    change (thread (set_list ?k b (Some x)) y c) with (thread k y c). unfold set_next. now rewrite G.
Qed.

Lemma head_involves h t b y : repr h t -> th_list h b = Some y -> involves t b y = true.
Proof.
  intros R E. destruct (p_list h t R b) as (L & _). rewrite E in L.
  assert (H : In y (inl t b)) by (destruct (inl t b); [discriminate|]; injection L as ->; now left). now apply inl_in in H.
Qed.

Theorem push_live_forever h t x : repr h t -> In x (live t) ->
  forall b, involves t b x = true -> forall fuel, each_arbiter fuel (push_both h x) b = None.
Proof.
  intros R Hx b0 I0. pose proof R as [B Nd Df Ls Off]. pose proof (Df x Hx) as Nab.
  set (a := t_a (th_arb h x)). set (b := t_b (th_arb h x)).
  assert (Px : pair_of t x = (a, b)) by (symmetry; apply B). rewrite Px in Nab. cbn [fst snd] in Nab.
  assert (Ia : involves t a x = true) by (unfold involves; rewrite Px; cbn; now rewrite Nat.eqb_refl).
  assert (Ib : involves t b x = true) by (unfold involves; rewrite Px; cbn; rewrite Nat.eqb_refl; apply orb_true_r).
  assert (Ndl : forall c, NoDup (inl t c)) by (intros c; now apply NoDup_filter).
  assert (Xa : In x (inl t a)) by (apply inl_in; now split). assert (Xb : In x (inl t b)) by (apply inl_in; now split).
  apply in_split in Xa, Xb. destruct Xa as (la & ra & Ea). destruct Xb as (lb & rb & Eb).
  pose proof (Ndl a) as Na. pose proof (Ndl b) as Nb. rewrite Ea in Na. rewrite Eb in Nb.
  destruct (Ls a) as (La & Da). destruct (Ls b) as (Lb & Db). rewrite Ea in La, Da. rewrite Eb in Lb, Db.
  assert (IVa : forall y, In y (la ++ [x]) -> involves t a y = true).
  { intros y Hy. assert (H : In y (inl t a)) by (rewrite Ea; apply in_app_iff in Hy; apply in_or_app; destruct Hy as [Hy|[<-|[]]]; [now left|right; now left]).
    now apply inl_in in H. }
  assert (IVb : forall y, In y (lb ++ x :: rb) -> involves t b y = true) by (intros y Hy; rewrite <- Eb in Hy; now apply inl_in in Hy).
  destruct (push_twice h a x la ra La Da Na) as (L1 & C1).
  destruct (push_other h t a x B Ia (fun y E => head_involves h t a y R E)) as (B1 & Lo1 & To1).
  set (h1 := push_arbiter h a x) in *.
  assert (Lb1 : th_list h1 b = hd_error (lb ++ x :: rb)) by (rewrite Lo1 by congruence; exact Lb).
  assert (Db1 : dll h1 b None (lb ++ x :: rb)) by (apply (dll_ext h); [|exact Db]; intros y Hy; apply To1; [congruence|now apply IVb]).
  destruct (push_twice h1 b x lb rb Lb1 Db1 Nb) as (L2 & C2).
  assert (Hb1 : forall y, th_list h1 b = Some y -> involves t b y = true).
  { intros y E. rewrite Lb1 in E. apply IVb. destruct (lb ++ x :: rb); [discriminate|]. injection E as ->. now left. }
  destruct (push_other h1 t b x B1 Ib Hb1) as (B2 & Lo2 & To2).
  unfold push_both. fold a. fold b. fold h1. set (h2 := push_arbiter h1 b x) in *.
  assert (Q : b0 = a \/ b0 = b).
  { unfold involves in I0. rewrite Px in I0. cbn in I0. apply orb_true_iff in I0. destruct I0 as [E|E]; apply Nat.eqb_eq in E; auto. }
  destruct Q as [Q|Q]; subst b0; apply (cycle_forever h2 _ x).
  - exists (fun y => In y (la ++ [x])). split; [rewrite Lo2 by exact Nab; exact L1|]. split; [apply in_or_app; right; now left|].
    intros y Hy. destruct (C1 y Hy) as (z & E & Hz). exists z. split; [|exact Hz]. rewrite arb_next_thread in *. rewrite To2; [exact E|exact Nab|now apply IVa].
  - exists (fun y => In y (lb ++ [x])). split; [exact L2|]. split; [apply in_or_app; right; now left|exact C2].
Qed.
