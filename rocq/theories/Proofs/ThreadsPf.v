(** The intrusive lists of Model/Threads.v are the lists of SpecThreads.v *)
From Coq Require Import Arith Bool List Lia.
From Verif Require Import SpecThreads.
From Verif.Model Require Import Threads.
Import ListNotations.
Local Open Scope nat_scope.

Lemma put_eq {A} (f : nat -> A) i x : put f i x i = x.
Proof. unfold put. now rewrite Nat.eqb_refl. Qed.
Lemma put_ne {A} (f : nat -> A) i j x : j <> i -> put f i x j = f j.
Proof. intros N. unfold put. apply Nat.eqb_neq in N. now rewrite N. Qed.

(** which of the two threads *)
Definition side (h : THeap) (x b : nat) : bool := t_a (th_arb h x) =? b.
(** the bodies are those of [t] *)
Definition bodies (h : THeap) (t : threads) : Prop := forall x, (t_a (th_arb h x), t_b (th_arb h x)) = pair_of t x.

Lemma set_thread_bodies h x b r y : t_a (th_arb (set_thread h x b r) y) = t_a (th_arb h y) /\ t_b (th_arb (set_thread h x b r) y) = t_b (th_arb h y).
Proof.
  unfold set_thread. cbn. unfold put. destruct (y =? x) eqn:E; [|auto]. apply Nat.eqb_eq in E. subst y. destruct (t_a (th_arb h x) =? b); auto.
Qed.
Lemma side_set h x b r y c : side (set_thread h x b r) y c = side h y c.
Proof. unfold side. now rewrite (proj1 (set_thread_bodies h x b r y)). Qed.
Lemma thread_set h x b r y c : thread (set_thread h x b r) y c = if (y =? x) && Bool.eqb (side h x b) (side h x c) then r else thread h y c.
Proof.
  unfold thread, side. rewrite (proj1 (set_thread_bodies h x b r y)). unfold set_thread. cbn. unfold put. destruct (y =? x) eqn:E; [|reflexivity].
  apply Nat.eqb_eq in E. subst y. cbn [andb]. destruct (t_a (th_arb h x) =? b) eqn:B; destruct (t_a (th_arb h x) =? c) eqn:C; cbn; rewrite ?B, ?C; reflexivity.
Qed.
Lemma list_set h x b r c : th_list (set_thread h x b r) c = th_list h c.
Proof. reflexivity. Qed.

Lemma arb_next_thread h x b : arb_next h x b = th_next (thread h x b).
Proof. unfold arb_next, thread. destruct (t_a (th_arb h x) =? b); reflexivity. Qed.

(** a doubly linked list through the threads for [b] *)
Fixpoint dll (h : THeap) (b : nat) (prev : option nat) (l : list nat) : Prop :=
  match l with
  | [] => True
  | x :: r => thread h x b = mkThr (hd_error r) prev /\ dll h b (Some x) r
  end.
Lemma dll_ext h h' b : forall l prev, (forall x, In x l -> thread h' x b = thread h x b) -> dll h b prev l -> dll h' b prev l.
Proof.
  induction l as [|x r IH]; intros prev E; [auto|]. cbn. intros (A & B). split; [rewrite E by (now left); exact A|].
  apply IH; [|exact B]. intros y Hy. apply E. now right.
Qed.

Definition inl (t : threads) (b : nat) : list nat := filter (involves t b) (live t).
Record repr (h : THeap) (t : threads) : Prop := mkRepr {
  p_bodies : bodies h t;
  p_nodup : NoDup (live t);
  p_diff : forall x, In x (live t) -> fst (pair_of t x) <> snd (pair_of t x);
  p_list : forall b, th_list h b = hd_error (inl t b) /\ dll h b None (inl t b);
  p_off : forall x, ~ In x (live t) -> t_ta (th_arb h x) = nil_thr /\ t_tb (th_arb h x) = nil_thr }.

Lemma off_thread h t x b : repr h t -> ~ In x (live t) -> thread h x b = nil_thr.
Proof. intros R N. unfold thread. destruct (p_off h t R x N) as (A & B). destruct (_ =? b); assumption. Qed.

(** the threads of an arbiter for its two bodies are different memory *)
Lemma side_diff h t x b c : bodies h t -> involves t b x = true -> involves t c x = true -> b <> c -> side h x b <> side h x c.
Proof.
  intros B Ib Ic N. unfold side, involves in *. specialize (B x). rewrite <- B in *. cbn [fst snd] in *.
  destruct (t_a (th_arb h x) =? b) eqn:Eb; destruct (t_a (th_arb h x) =? c) eqn:Ec; try discriminate; cbn [orb] in *.
  - apply Nat.eqb_eq in Eb, Ec. congruence.
  - apply Nat.eqb_eq in Ib, Ic. congruence.
Qed.
Lemma eqb_diff (x y : bool) : x <> y -> Bool.eqb x y = false.
Proof. destruct x, y; congruence || auto. Qed.

Lemma walk_dll h b : forall l prev fuel, length l <= fuel -> dll h b prev l -> walk_from fuel h b (hd_error l) = Some l.
Proof.
  induction l as [|x r IH]; intros prev fuel L D; [destruct fuel; reflexivity|]. destruct fuel as [|fuel]; [cbn in L; lia|].
  destruct D as (A & B). cbn [hd_error walk_from]. rewrite arb_next_thread, A. cbn [th_next]. rewrite (IH (Some x) fuel); [reflexivity|cbn in L; lia|exact B].
Qed.

(** ** pushing *)
Lemma set_thread_bodies_of h t x b r : bodies h t -> bodies (set_thread h x b r) t.
Proof. intros B y. destruct (set_thread_bodies h x b r y) as (-> & ->). apply B. Qed.

(** one PushArbiter: the list of [b] gains [x], the others are untouched *)
Lemma push_one h t b x l :
  bodies h t -> (forall y, In y l -> involves t b y = true) -> involves t b x = true -> ~ In x l ->
  th_list h b = hd_error l -> dll h b None l -> thread h x b = nil_thr ->
  let h' := push_arbiter h b x in
  bodies h' t /\ th_list h' b = Some x /\ dll h' b None (x :: l) /\
  (forall c, c <> b -> th_list h' c = th_list h c) /\
  (forall c y, c <> b -> involves t c y = true -> thread h' y c = thread h y c) /\
  (forall y, y <> x -> ~ In y l -> th_arb h' y = th_arb h y).
Proof.
  intros B Iv Ix Nx Hl D Th h'. unfold h', push_arbiter. clear h'. rewrite Hl.
  assert (E1 : set_next h x b (hd_error l) = set_thread h x b (mkThr (hd_error l) None)) by (unfold set_next; now rewrite Th). rewrite E1. clear E1.
  set (h1 := set_thread h x b (mkThr (hd_error l) None)).
  assert (B1 : bodies h1 t) by (now apply set_thread_bodies_of).
  assert (T1 : thread h1 x b = mkThr (hd_error l) None) by (unfold h1; rewrite thread_set, Nat.eqb_refl, Bool.eqb_reflx; reflexivity).
  assert (O1 : forall y c, y <> x -> thread h1 y c = thread h y c) by (intros y c N; unfold h1; rewrite thread_set; apply Nat.eqb_neq in N; now rewrite N).
  assert (S1 : forall c y, c <> b -> involves t c y = true -> thread h1 y c = thread h y c).
  { intros c y N I. unfold h1. rewrite thread_set. destruct (y =? x) eqn:E; [|reflexivity]. apply Nat.eqb_eq in E. subst y. cbn [andb].
    rewrite eqb_diff; [reflexivity|]. apply (side_diff h t); auto. }
  destruct l as [|y r]; cbn [hd_error] in *.
  - split; [exact B1|]. split; [cbn; now rewrite put_eq|]. split; [cbn; split; [exact T1|exact Logic.I]|].
    split; [intros c N; cbn; now rewrite put_ne|]. split; [exact S1|]. intros y N _. cbn. unfold h1, set_thread. cbn. now apply put_ne.
  - assert (Nyx : y <> x) by (intros ->; apply Nx; now left).
    destruct D as (Dy & Dr). unfold set_prev. rewrite (O1 y b Nyx), Dy. cbn [th_next].
    set (h2 := set_thread h1 y b (mkThr (hd_error r) (Some x))).
    assert (T2 : thread h2 y b = mkThr (hd_error r) (Some x)) by (unfold h2; rewrite thread_set, Nat.eqb_refl, Bool.eqb_reflx; reflexivity).
    assert (O2 : forall z c, z <> y -> thread h2 z c = thread h1 z c) by (intros z c N; unfold h2; rewrite thread_set; apply Nat.eqb_neq in N; now rewrite N).
    split; [now apply set_thread_bodies_of|]. split; [cbn; now rewrite put_eq|].
    change (thread (set_list h2 b (Some x))) with (thread h2).
    split.
    + assert (Nr : forall z, In z r -> z <> x) by (intros z Hz ->; apply Nx; now right).
      assert (Ny : ~ In y r).
      { intros Hy. (* y twice in a list: its thread would name two predecessors *)
        clear - Dy Dr Hy.
        assert (G : forall r p, dll h b (Some p) r -> In y r -> exists q, th_prev (thread h y b) = Some q).
        { induction r0 as [|z r0 IH]; intros p D Hz; [destruct Hz|]. destruct D as (A & E). destruct Hz as [<-|Hz]; [exists p; now rewrite A|].
          now apply (IH z). }
        destruct (G r y Dr Hy) as (q & Q). rewrite Dy in Q. discriminate. }
      cbn [dll]. split; [|split].
      * change (thread h2 x b = mkThr (hd_error (y :: r)) None). rewrite (O2 x b) by congruence. exact T1.
      * exact T2.
      * apply (dll_ext h); [|exact Dr]. intros z Hz. change (thread h2 z b = thread h z b). rewrite (O2 z b) by (intros ->; contradiction). apply O1. now apply Nr.
    + split; [intros c N; cbn; now rewrite put_ne|]. split.
      * intros c z N I. destruct (Nat.eq_dec z y) as [->|Nz].
        -- rewrite <- (O1 y c Nyx). unfold h2. change (thread (set_list (set_thread h1 y b (mkThr (hd_error r) (Some x))) b (Some x)) y c) with (thread (set_thread h1 y b (mkThr (hd_error r) (Some x))) y c).
           rewrite thread_set, Nat.eqb_refl. cbn [andb]. rewrite eqb_diff; [reflexivity|]. apply (side_diff h1 t); auto. apply Iv. now left.
        -- change (thread h2 z c = thread h z c). rewrite (O2 z c Nz). now apply S1.
      * intros z Nz Hz. cbn. unfold h2, set_thread. cbn. rewrite put_ne by (intros ->; apply Hz; now left). now apply put_ne.
Qed.

Lemma inl_in t b x : In x (inl t b) <-> In x (live t) /\ involves t b x = true.
Proof. unfold inl. apply filter_In. Qed.

Lemma push_repr h t x : repr h t -> proper t (Push x) -> repr (push_both h x) (happens t (Push x)).
Proof.
  intros R (Nab & Nl). pose proof R as [B Nd Df Ls Off].
  set (a := t_a (th_arb h x)). set (b := t_b (th_arb h x)).
  assert (Px : pair_of t x = (a, b)) by (symmetry; apply B). rewrite Px in Nab. cbn [fst snd] in Nab.
  assert (Ia : involves t a x = true) by (unfold involves; rewrite Px; cbn; now rewrite Nat.eqb_refl).
  assert (Ib : involves t b x = true) by (unfold involves; rewrite Px; cbn; rewrite Nat.eqb_refl; apply orb_true_r).
  assert (Io : forall c, c <> a -> c <> b -> involves t c x = false).
  { intros c Na Nb. unfold involves. rewrite Px. cbn. rewrite (proj2 (Nat.eqb_neq a c)), (proj2 (Nat.eqb_neq b c)) by congruence. reflexivity. }
  assert (Nin : forall c, ~ In x (inl t c)) by (intros c X; apply inl_in in X; now apply Nl).
  unfold push_both. fold a. fold b.
  destruct (push_one h t a x (inl t a) B ltac:(intros y Hy; now apply inl_in in Hy) Ia (Nin a) (proj1 (Ls a)) (proj2 (Ls a)) (off_thread h t x a R Nl))
    as (B1 & L1 & D1 & Lo1 & To1 & Ao1).
  set (h1 := push_arbiter h a x) in *.
  destruct (Ls b) as (Lb & Db).
  destruct (push_one h1 t b x (inl t b) B1 ltac:(intros y Hy; now apply inl_in in Hy) Ib (Nin b)) as (B2 & L2 & D2 & Lo2 & To2 & Ao2).
  - rewrite Lo1 by congruence. exact Lb.
  - apply (dll_ext h); [|exact Db]. intros y Hy. apply To1; [congruence|]. now apply inl_in in Hy.
  - rewrite To1 by (congruence || exact Ib). apply (off_thread h t x b R Nl).
  - set (h2 := push_arbiter h1 b x) in *. constructor.
    + exact B2.
    + constructor; assumption.
    + intros y [<-|Hy]; [cbn [happens pair_of]; rewrite Px; exact Nab|]. now apply Df.
    + intros c. unfold inl. cbn [happens live filter]. change (involves (mkThreads (pair_of t) (x :: live t))) with (involves t).
      destruct (Nat.eq_dec c a) as [->|Na]; [|destruct (Nat.eq_dec c b) as [->|Nb]].
      * rewrite Ia. split; [rewrite Lo2 by congruence; exact L1|]. apply (dll_ext h1); [|exact D1].
        intros y Hy. apply To2; [congruence|]. destruct Hy as [<-|Hy]; [exact Ia|]. fold (inl t a) in Hy. now apply inl_in in Hy.
      * rewrite Ib. split; [exact L2|exact D2].
      * rewrite (Io c Na Nb). destruct (Ls c) as (Lc & Dc). split; [rewrite Lo2, Lo1 by congruence; exact Lc|].
        apply (dll_ext h); [|exact Dc]. intros y Hy. apply inl_in in Hy. rewrite To2, To1 by (congruence || apply Hy). reflexivity.
    + intros y Ny. cbn [happens live] in Ny. assert (Nyx : y <> x) by (intros ->; apply Ny; now left).
      assert (Nyl : ~ In y (live t)) by (intros Hy; apply Ny; now right).
      unfold h2. rewrite Ao2; [|exact Nyx|intros Hy; apply inl_in in Hy; now apply Nyl].
      unfold h1. rewrite Ao1; [|exact Nyx|intros Hy; apply inl_in in Hy; now apply Nyl]. now apply Off.
Qed.

(** ** unthreading *)
Lemma dll_split h b x l2 : forall l1 prev, dll h b prev (l1 ++ x :: l2) ->
  thread h x b = mkThr (hd_error l2) (match rev l1 with [] => prev | p :: _ => Some p end) /\ dll h b (Some x) l2.
Proof.
  induction l1 as [|y r IH]; intros prev; cbn [app dll]; [intros (A & B); now split|].
  intros (A & B). destruct (IH (Some y) B) as (C & D). split; [|exact D]. rewrite C. cbn [rev]. destruct (rev r); reflexivity.
Qed.
Lemma rev_last {A} (l : list A) : match rev l with [] => l = [] | p :: r => l = rev r ++ [p] end.
Proof. destruct (rev l) as [|p r] eqn:E; [apply (f_equal (@rev A)) in E; now rewrite rev_involutive in E|]. apply (f_equal (@rev A)) in E. rewrite rev_involutive in E. exact E. Qed.

(** relinking around [x] *)
Lemma dll_remove h h' b x l2 : forall l1 prev, NoDup (l1 ++ x :: l2) -> dll h b prev (l1 ++ x :: l2) ->
  (forall y, In y (l1 ++ l2) ->
     thread h' y b = mkThr (if match rev l1 with p :: _ => y =? p | [] => false end then hd_error l2 else th_next (thread h y b))
                           (if match l2 with n :: _ => y =? n | [] => false end then match rev l1 with [] => prev | p :: _ => Some p end else th_prev (thread h y b))) ->
  dll h' b prev (l1 ++ l2).
Proof.
  induction l1 as [|y r IH]; intros prev Nd D E.
  - cbn [app] in *. destruct D as (_ & D). destruct l2 as [|n l2]; [exact Logic.I|]. destruct D as (A & D). cbn [dll]. split.
    + rewrite (E n (or_introl eq_refl)). cbn [rev]. rewrite Nat.eqb_refl, A. reflexivity.
    + apply (dll_ext h); [|exact D]. intros z Hz. rewrite (E z (or_intror Hz)). cbn [rev].
      rewrite (proj2 (Nat.eqb_neq z n)); [now destruct (thread h z b)|]. intros ->. inversion Nd as [|? ? _ N2]; subst. inversion N2; subst. contradiction.
  - cbn [app dll] in *. destruct D as (A & D). inversion Nd as [|? ? N1 N2]; subst. split.
    + rewrite (E y (or_introl eq_refl)). rewrite A. cbn [th_next th_prev].
      assert (Y2 : match l2 with [] => false | n :: _ => y =? n end = false).
      { destruct l2 as [|n l2]; [reflexivity|]. apply Nat.eqb_neq. intros ->. apply N1. apply in_or_app. right. right. now left. }
      rewrite Y2. f_equal. destruct r as [|z r].
      * cbn [rev app hd_error]. now rewrite Nat.eqb_refl.
      * cbn [rev app hd_error]. assert (Q : exists q rr, rev r ++ [z] = q :: rr /\ In q (z :: r)).
        { destruct (rev r ++ [z]) as [|q rr] eqn:Er; [destruct (rev r); discriminate|]. exists q, rr. split; [reflexivity|].
          apply in_rev. cbn [rev]. rewrite Er. now left. }
        destruct Q as (q & rr & -> & Hq). cbn [app]. rewrite (proj2 (Nat.eqb_neq y q)); [reflexivity|].
        intros ->. apply N1. change (z :: r ++ x :: l2) with ((z :: r) ++ x :: l2). apply in_or_app. now left.
    + apply IH; [exact N2|exact D|]. intros z Hz. rewrite (E z (or_intror Hz)). cbn [rev].
      destruct (rev r) as [|q rr] eqn:Er; cbn [app]; [|reflexivity].
      assert (r = []) by (destruct r; [reflexivity|]; cbn in Er; destruct (rev r); discriminate). subst r. cbn [app] in *.
      rewrite (proj2 (Nat.eqb_neq z y)); [reflexivity|]. intros ->. apply N1. now right.
Qed.

(** one unthreadHelper on a list with [x] in it *)
Lemma unthread_one h t b x l1 l2 :
  bodies h t -> (forall y, In y (l1 ++ x :: l2) -> involves t b y = true) -> NoDup (l1 ++ x :: l2) ->
  th_list h b = hd_error (l1 ++ x :: l2) -> dll h b None (l1 ++ x :: l2) ->
  let h' := unthread_helper h x b in
  bodies h' t /\ th_list h' b = hd_error (l1 ++ l2) /\ dll h' b None (l1 ++ l2) /\ thread h' x b = nil_thr /\
  (forall c, c <> b -> th_list h' c = th_list h c) /\
  (forall c y, c <> b -> involves t c y = true -> thread h' y c = thread h y c) /\
  (forall y, ~ In y (l1 ++ x :: l2) -> th_arb h' y = th_arb h y).
Proof.
  intros B Iv Nd Hl D h'. destruct (dll_split h b x l2 l1 None D) as (Tx & _).
  pose proof (NoDup_remove_2 _ _ _ Nd) as Nx.
  unfold h', unthread_helper. clear h'. rewrite Tx. cbn [th_next th_prev].
  set (h1 := match (match rev l1 with [] => None | p :: _ => Some p end) with Some p => _ | None => _ end).
  set (h2 := match hd_error l2 with Some n => _ | None => _ end).
  assert (F1 : forall y c, thread h1 y c = if match rev l1 with p :: _ => (y =? p) && Bool.eqb (side h p b) (side h p c) | [] => false end then mkThr (hd_error l2) (th_prev (thread h y b)) else thread h y c).
  { intros y c. unfold h1. destruct (rev l1) as [|p r]; [destruct (match th_list h b with Some _ => _ | None => _ end); reflexivity|].
    unfold set_next. rewrite thread_set. destruct (y =? p) eqn:E; [|reflexivity]. apply Nat.eqb_eq in E. subst y. reflexivity. }
  assert (S1 : forall y c, side h1 y c = side h y c).
  { intros y c. unfold h1. destruct (rev l1); [destruct (match th_list h b with Some _ => _ | None => _ end); reflexivity|]. apply side_set. }
  assert (B1 : bodies h1 t).
  { unfold h1. destruct (rev l1); [destruct (match th_list h b with Some _ => _ | None => _ end); exact B|]. now apply set_thread_bodies_of. }
  assert (B2 : bodies h2 t) by (unfold h2; destruct (hd_error l2); [now apply set_thread_bodies_of|exact B1]).
  set (pv := match rev l1 with [] => None | p :: _ => Some p end) in *.
  assert (F2 : forall y c, thread h2 y c = if match l2 with n :: _ => (y =? n) && Bool.eqb (side h n b) (side h n c) | [] => false end then mkThr (th_next (thread h1 y b)) pv else thread h1 y c).
  { intros y c. unfold h2. destruct l2 as [|n r]; cbn [hd_error]; [reflexivity|]. unfold set_prev. rewrite thread_set, !S1.
    destruct (y =? n) eqn:E; [|reflexivity]. apply Nat.eqb_eq in E. subst y. reflexivity. }
  assert (S2 : forall y c, side h2 y c = side h y c).
  { intros y c. unfold h2. destruct (hd_error l2); [unfold set_prev; rewrite side_set|]; apply S1. }
  set (h3 := set_prev (set_next h2 x b None) x b None).
  assert (F3 : forall y c, thread h3 y c = if (y =? x) && Bool.eqb (side h x b) (side h x c) then nil_thr else thread h2 y c).
  { intros y c. unfold h3, set_prev, set_next. rewrite !thread_set, !side_set, !S2, Nat.eqb_refl, Bool.eqb_reflx. cbn [andb th_next].
    destruct (y =? x) eqn:E; [|reflexivity]. cbn [andb]. destruct (Bool.eqb (side h x b) (side h x c)); reflexivity. }
  assert (Inp : forall p r, rev l1 = p :: r -> In p l1) by (intros p r E; apply in_rev; rewrite E; now left).
  split; [unfold h3, set_prev, set_next; now do 2 apply set_thread_bodies_of|]. split; [|split; [|split; [|split; [|split]]]].
  - change (th_list h3 b) with (th_list h2 b). assert (Q : th_list h2 b = th_list h1 b) by (unfold h2; destruct (hd_error l2); reflexivity). rewrite Q.
    unfold h1, pv. pose proof (rev_last l1) as Rl. destruct (rev l1) as [|p r] eqn:Er.
    + subst l1. cbn [app hd_error] in *. rewrite Hl, Nat.eqb_refl. cbn. now rewrite put_eq.
    + change (th_list (set_next h p b (hd_error l2)) b) with (th_list h b). rewrite Hl. destruct l1; [destruct (rev r); discriminate|reflexivity].
  - apply (dll_remove h h3 b x l2 l1 None Nd D). intros y Hy.
    assert (Nyx : y <> x) by (intros ->; contradiction).
    rewrite F3, (proj2 (Nat.eqb_neq y x) Nyx). cbn [andb]. rewrite F2, !F1. fold pv.
    set (p1 := match rev l1 with [] => false | p :: _ => y =? p end).
    assert (E1 : match rev l1 with [] => false | p :: _ => (y =? p) && Bool.eqb (side h p b) (side h p b) end = p1).
    { unfold p1. destruct (rev l1); [reflexivity|]. rewrite Bool.eqb_reflx. apply andb_true_r. }
    rewrite E1. set (p2 := match l2 with [] => false | n :: _ => y =? n end).
    assert (E2 : match l2 with [] => false | n :: _ => (y =? n) && Bool.eqb (side h n b) (side h n b) end = p2).
    { unfold p2. destruct l2; [reflexivity|]. rewrite Bool.eqb_reflx. apply andb_true_r. }
    rewrite E2. destruct p1, p2; cbn [th_next th_prev]; destruct (thread h y b); reflexivity.
  - rewrite F3, Nat.eqb_refl, Bool.eqb_reflx. reflexivity.
  - intros c N. change (th_list h3 c) with (th_list h2 c). assert (Q : th_list h2 c = th_list h1 c) by (unfold h2; destruct (hd_error l2); reflexivity). rewrite Q.
    unfold h1. destruct pv; [reflexivity|]. destruct (match th_list h b with Some _ => _ | None => _ end); [|reflexivity]. cbn. now apply put_ne.
  - intros c y N I.
    assert (K : forall z, In z (l1 ++ x :: l2) -> (y =? z) && Bool.eqb (side h z b) (side h z c) = false).
    { intros z Hz. destruct (y =? z) eqn:E; [|reflexivity]. apply Nat.eqb_eq in E. subst z. cbn [andb]. apply eqb_diff.
      apply (side_diff h t); auto. }
    rewrite F3, (K x) by (apply in_or_app; right; now left). rewrite F2.
    assert (K2 : match l2 with [] => false | n :: _ => (y =? n) && Bool.eqb (side h n b) (side h n c) end = false).
    { destruct l2 as [|n r]; [reflexivity|]. apply K. apply in_or_app. right. right. now left. }
    rewrite K2, F1. assert (K1 : match rev l1 with [] => false | p :: _ => (y =? p) && Bool.eqb (side h p b) (side h p c) end = false).
    { destruct (rev l1) as [|p r] eqn:Er; [reflexivity|]. apply K. apply in_or_app. left. now apply (Inp p r). }
    now rewrite K1.
  - intros y Ny. unfold h3, set_prev, set_next, set_thread. cbn [th_arb]. assert (Nyx : y <> x) by (intros ->; apply Ny; apply in_or_app; right; now left).
    rewrite !put_ne by exact Nyx. unfold h2. destruct l2 as [|n r]; cbn [hd_error].
    + unfold h1. unfold pv. destruct (rev l1) as [|p r] eqn:Er; [destruct (match th_list h b with Some _ => _ | None => _ end); reflexivity|].
      unfold set_next, set_thread. cbn [th_arb]. apply put_ne. intros ->. apply Ny. apply in_or_app. left. now apply (Inp p r).
    + unfold set_prev, set_thread. cbn [th_arb]. rewrite put_ne by (intros ->; apply Ny; apply in_or_app; right; right; now left).
      unfold h1, pv. destruct (rev l1) as [|p r'] eqn:Er; [destruct (match th_list h b with Some _ => _ | None => _ end); reflexivity|].
      unfold set_next, set_thread. cbn [th_arb]. apply put_ne. intros ->. apply Ny. apply in_or_app. left. now apply (Inp p r').
Qed.
