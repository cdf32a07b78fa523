(** The pair lists of Model/BBTreeHeap.v: which list of pairs the pointers represent. *)
From Coq Require Import Arith Bool List Lia.
From Verif Require Import SpecThreads.
From Verif.Model Require Import Threads BBTreeHeap.
From Verif.Proofs Require Import ThreadsPf.
Import ListNotations.
Local Open Scope nat_scope.

(** a singly linked chain *)
Fixpoint chain (nx : nat -> option nat) (hd : option nat) (l : list nat) : Prop :=
  match l with [] => hd = None | x :: r => hd = Some x /\ chain nx (nx x) r end.
Lemma chain_ext nx nx' : forall l hd, (forall x, In x l -> nx' x = nx x) -> chain nx hd l -> chain nx' hd l.
Proof.
  induction l as [|x r IH]; intros hd E; [auto|]. cbn. intros (A & C). split; [exact A|]. rewrite E by (now left).
  apply IH; [|exact C]. intros y Hy. apply E. now right.
Qed.
Lemma chain_hd nx l hd : chain nx hd l -> hd = hd_error l.
Proof. destruct l; cbn; [auto|]. now intros (-> & _). Qed.

Lemma nodup_app_left (l1 l2 : list nat) : NoDup (l1 ++ l2) -> NoDup l1.
Proof. induction l1 as [|x l IH]; cbn; [constructor|]. intros N. inversion N as [|? ? A B]; subst. constructor; [|auto]. intros H. apply A. apply in_or_app. now left. Qed.

Notation apair := (nat * (nat * nat))%type.
Definition touch (n : nat) (p : apair) : bool := (fst (snd p) =? n) || (snd (snd p) =? n).
Definition lst (pl : list apair) (n : nat) : list nat := map fst (filter (touch n) pl).
Definition thr (h : THeap) : threads := mkThreads (fun x => (t_a (th_arb h x), t_b (th_arb h x))) [].
Lemma thr_bodies h : bodies h (thr h).
Proof. intros x. reflexivity. Qed.

(** the lists of the nodes in [P] are right *)
Record prepr_on (P : nat -> Prop) (p : pheap) (pl : list apair) (q : list nat) : Prop := mkPR {
  pr_ends : forall x a b, In (x, (a, b)) pl -> t_a (th_arb (pth p) x) = a /\ t_b (th_arb (pth p) x) = b /\ a <> b;
  pr_nodup : NoDup (map fst pl ++ q);
  pr_lt : forall x, In x (map fst pl ++ q) -> x < pfresh p;
  pr_list : forall n, P n -> th_list (pth p) n = hd_error (lst pl n) /\ dll (pth p) n None (lst pl n);
  pr_pool : chain (fun x => th_next (t_ta (th_arb (pth p) x))) (ppool p) q }.
Definition prepr := prepr_on (fun _ => True).

Lemma lst_in pl n x : In x (lst pl n) -> In x (map fst pl).
Proof. unfold lst. intros H. apply in_map_iff in H as (p & <- & H). apply filter_In in H. apply in_map. tauto. Qed.
Lemma lst_inv P p pl q n x : prepr_on P p pl q -> In x (lst pl n) -> involves (thr (pth p)) n x = true.
Proof.
  intros R H. apply in_map_iff in H as ([y [a b]] & <- & H). apply filter_In in H as (H & Tn). destruct (pr_ends _ _ _ _ R _ _ _ H) as (A & B & _).
  unfold involves, thr, touch in *. cbn in *. now rewrite A, B.
Qed.
Lemma lst_nodup pl n : NoDup (map fst pl) -> NoDup (lst pl n).
Proof.
  unfold lst. induction pl as [|p pl IH]; cbn; [constructor|]. intros N. inversion N as [|? ? N1 N2]; subst. destruct (touch n p); [|auto].
  cbn. constructor; [|auto]. intros H. apply N1. now apply (lst_in pl n).
Qed.

(** changes outside the pairs in use *)
Lemma prepr_ext P p p' pl q q' :
  prepr_on P p pl q ->
  (forall x, In x (map fst pl) -> th_arb (pth p') x = th_arb (pth p) x) ->
  (forall n, P n -> th_list (pth p') n = th_list (pth p) n) ->
  NoDup (map fst pl ++ q') -> (forall x, In x (map fst pl ++ q') -> x < pfresh p') ->
  chain (fun x => th_next (t_ta (th_arb (pth p') x))) (ppool p') q' -> prepr_on P p' pl q'.
Proof.
  intros R Ea El Nd Lt Ch. constructor; auto.
  - intros x a b H. rewrite Ea; [now apply (pr_ends _ _ _ _ R)|]. apply in_map_iff. exists (x, (a, b)). auto.
  - intros n Hn. destruct (pr_list _ _ _ _ R n Hn) as (A & D). split; [now rewrite El|]. apply (dll_ext (pth p)); [|exact D].
    intros x Hx. apply lst_in in Hx. unfold thread. now rewrite Ea.
Qed.

Lemma in_mid {A} (x y : A) l1 l2 : In y (l1 ++ x :: l2) <-> y = x \/ In y (l1 ++ l2).
Proof. rewrite !in_app_iff. cbn. intuition. Qed.

(** bbtree.go:235-239 *)
Lemma recycle_repr P p pl q x : prepr_on P p pl q -> ~ In x (map fst pl ++ q) -> x < pfresh p ->
  prepr_on P (recycle_pair p x) pl (x :: q).
Proof.
  intros R N L. apply (prepr_ext P p _ pl q); auto.
  - intros y Hy. cbn. apply put_ne. intros ->. apply N. apply in_or_app. now left.
  - apply (NoDup_Add (Add_app x (map fst pl) q)). split; [apply (pr_nodup _ _ _ _ R)|exact N].
  - intros y Hy. cbn. apply in_mid in Hy as [->|Hy]; [exact L|]. now apply (pr_lt _ _ _ _ R).
  - cbn [chain]. split; [reflexivity|]. cbn. rewrite put_eq. cbn. apply (chain_ext (fun x => th_next (t_ta (th_arb (pth p) x)))); [|apply (pr_pool _ _ _ _ R)].
    intros y Hy. cbn. rewrite put_ne; [reflexivity|]. intros ->. apply N. apply in_or_app. now right.
Qed.
Lemma alloc_repr P p pl q : prepr_on P p pl q -> prepr_on P (fst (alloc_pair p)) pl q.
Proof.
  intros R. assert (Ne : forall y, In y (map fst pl ++ q) -> y <> pfresh p) by (intros y Hy ->; apply (pr_lt _ _ _ _ R) in Hy; lia).
  apply (prepr_ext P p _ pl q); auto.
  - intros y Hy. cbn. apply put_ne. apply Ne. apply in_or_app. now left.
  - apply R.
  - intros y Hy. cbn. apply (pr_lt _ _ _ _ R) in Hy. lia.
  - apply (chain_ext (fun x => th_next (t_ta (th_arb (pth p) x)))); [|apply (pr_pool _ _ _ _ R)].
    intros y Hy. cbn. rewrite put_ne; [reflexivity|]. apply Ne. apply in_or_app. now right.
Qed.
Lemma grow_repr P pl : forall k p q, prepr_on P p pl q ->
  (exists q', prepr_on P (grow_pairs k p) pl q' /\ length q' = k + length q) /\ (forall n, th_list (pth (grow_pairs k p)) n = th_list (pth p) n) /\ pfresh (grow_pairs k p) = k + pfresh p.
Proof.
  induction k as [|k IH]; intros p q R; [split; [exists q; auto|auto]|]. cbn [grow_pairs alloc_pair].
  pose proof (alloc_repr P p pl q R) as R1. cbn [alloc_pair fst] in R1.
  apply (recycle_repr P _ pl q (pfresh p)) in R1; [| |cbn; lia].
  - destruct (IH _ _ R1) as ((q' & A & L) & Bn & C). cbn in L, C |- *. split; [exists q'; split; [exact A|lia]|]. split; [exact Bn|]. lia.
  - intros H. apply (pr_lt _ _ _ _ R) in H. lia.
Qed.
Opaque POOLED_BUFFER_SIZE.
(** what [pl] and the free list hold is all there is; new pairs are made only when the free list is empty *)
Definition pgrow (p p' : pheap) (pl pl' : list apair) (q q' : list nat) : Prop := length pl + length q = pfresh p ->
  length pl' + length q' = pfresh p' /\ ((pfresh p' = pfresh p /\ length q' <= length q) \/ length q' <= POOLED_BUFFER_SIZE).
Lemma pgrow_trans p1 p2 p3 l1 l2 l3 q1 q2 q3 : pgrow p1 p2 l1 l2 q1 q2 -> pgrow p2 p3 l2 l3 q2 q3 -> pgrow p1 p3 l1 l3 q1 q3.
Proof. unfold pgrow. intros A C H. destruct (A H) as (A1 & A2). destruct (C A1) as (C1 & C2). split; [exact C1|]. lia. Qed.
Lemma from_pool_repr p pl q : prepr p pl q -> exists p' x q', pair_from_pool p = (p', x) /\ prepr p' pl q' /\
  ~ In x (map fst pl ++ q') /\ x < pfresh p' /\ (forall n, th_list (pth p') n = th_list (pth p) n) /\ pgrow p p' pl ((0, (0, 0)) :: pl) q q'.
Proof.
  intros R. unfold pair_from_pool. pose proof (pr_pool _ _ _ _ R) as Ch. destruct q as [|x q]; cbn in Ch.
  - rewrite Ch. destruct (grow_repr (fun _ => True) pl POOLED_BUFFER_SIZE p [] R) as ((q' & R1 & Lq) & El & Le). cbn [length] in Lq.
    revert R1 El Le Lq. generalize (grow_pairs POOLED_BUFFER_SIZE p). intros p1 R1 El Le Lq. pose proof (alloc_repr _ p1 pl q' R1) as R2. cbn [alloc_pair fst] in *.
    eexists _, (pfresh p1), q'. split; [reflexivity|]. split; [exact R2|]. split; [|split; [cbn; lia|split; [exact El|unfold pgrow; cbn [length pfresh]; intros; lia]]].
    intros H. apply (pr_lt _ _ _ _ R1) in H. lia.
  - destruct Ch as (E & Ch). rewrite E. eexists _, x, q. split; [reflexivity|]. pose proof (pr_nodup _ _ _ _ R) as Nd.
    assert (N2 : ~ In x (map fst pl ++ q)) by (now apply NoDup_remove_2 in Nd). apply NoDup_remove_1 in Nd.
    split; [|split; [exact N2|split; [cbn; apply (pr_lt _ _ _ _ R); apply in_mid; now left|split; [reflexivity|unfold pgrow; cbn [length pfresh]; intros; lia]]]].
    apply (prepr_ext _ p _ pl (x :: q)); auto. intros y Hy. cbn. apply (pr_lt _ _ _ _ R). apply in_mid. now right.
Qed.

(** ** PairInsert *)
Definition hit (h : THeap) (o : option nat) (y a c : nat) : bool :=
  match o with Some z => (y =? z) && Bool.eqb (side h z a) (side h z c) | None => false end.
Lemma side_set_prev h o a v y c : side (match o with Some z => set_prev h z a v | None => h end) y c = side h y c.
Proof. destruct o; [apply side_set|reflexivity]. Qed.
Lemma thread_set_prev h o a v y c :
  thread (match o with Some z => set_prev h z a v | None => h end) y c = if hit h o y a c then mkThr (th_next (thread h y a)) v else thread h y c.
Proof.
  destruct o as [z|]; cbn [hit]; [|reflexivity]. unfold set_prev. rewrite thread_set. destruct (y =? z) eqn:E; [|reflexivity].
  apply Nat.eqb_eq in E. subst z. reflexivity.
Qed.
Lemma thread_set_next h o a v y c :
  thread (match o with Some z => set_next h z a v | None => h end) y c = if hit h o y a c then mkThr v (th_prev (thread h y a)) else thread h y c.
Proof.
  destruct o as [z|]; cbn [hit]; [|reflexivity]. unfold set_next. rewrite thread_set. destruct (y =? z) eqn:E; [|reflexivity].
  apply Nat.eqb_eq in E. subst z. reflexivity.
Qed.
Lemma arb_set_prev h o a v y : o <> Some y -> th_arb (match o with Some z => set_prev h z a v | None => h end) y = th_arb h y.
Proof. destruct o as [z|]; [|reflexivity]. intros N. unfold set_prev, set_thread. cbn. apply put_ne. congruence. Qed.
Lemma ends_set_prev h o a v y :
  t_a (th_arb (match o with Some z => set_prev h z a v | None => h end) y) = t_a (th_arb h y) /\
  t_b (th_arb (match o with Some z => set_prev h z a v | None => h end) y) = t_b (th_arb h y).
Proof. destruct o; [apply set_thread_bodies|auto]. Qed.
Lemma list_set_prev h o a v n : th_list (match o with Some z => set_prev h z a v | None => h end) n = th_list h n.
Proof. destruct o; reflexivity. Qed.
Lemma hd_in {A} (l : list A) x : hd_error l = Some x -> In x l.
Proof. destruct l; cbn; [discriminate|]. intros [= ->]. now left. Qed.

(** a list gains a head *)
Lemma dll_push h h' n x l : dll h n None l -> NoDup (x :: l) -> thread h' x n = mkThr (hd_error l) None ->
  (forall y, In y l -> thread h' y n = if match hd_error l with Some z => y =? z | None => false end then mkThr (th_next (thread h y n)) (Some x) else thread h y n) ->
  dll h' n None (x :: l).
Proof.
  intros D Nd Tx E. cbn [dll]. split; [exact Tx|]. inversion Nd as [|? ? N1 N2]; subst. destruct l as [|y r]; [exact Logic.I|].
  cbn [dll hd_error] in *. destruct D as (A & D). inversion N2 as [|? ? N3 N4]; subst. split.
  - rewrite (E y) by (now left). rewrite Nat.eqb_refl, A. reflexivity.
  - apply (dll_ext h); [|exact D]. intros z Hz. rewrite (E z) by (now right). rewrite (proj2 (Nat.eqb_neq z y)); [reflexivity|]. intros ->. contradiction.
Qed.

Lemma hit_self h o y a : hit h o y a a = match o with Some z => y =? z | None => false end.
Proof. destruct o; cbn; [|reflexivity]. now rewrite Bool.eqb_reflx, andb_true_r. Qed.
(** the two threads of a pair are different memory *)
Lemma hit_other P p pl q a c y o : prepr_on P p pl q -> a <> c -> In y (lst pl c) -> (forall z, o = Some z -> In z (lst pl a)) -> hit (pth p) o y a c = false.
Proof.
  intros R N Hy Ho. destruct o as [z|]; [|reflexivity]. cbn. destruct (y =? z) eqn:E; [|reflexivity]. apply Nat.eqb_eq in E. subst z. cbn.
  apply eqb_diff. apply (side_diff (pth p) (thr (pth p))); auto using thr_bodies.
  - apply (lst_inv P p pl q); auto.
  - apply (lst_inv P p pl q); auto.
Qed.

Lemma insert_repr p pl q a b : prepr p pl q -> a <> b -> exists x q', prepr (h_pair_insert p a b) ((x, (a, b)) :: pl) q' /\ pgrow p (h_pair_insert p a b) pl ((x, (a, b)) :: pl) q q'.
Proof.
  intros R0 Nab. unfold h_pair_insert. destruct (from_pool_repr p pl q R0) as (p' & x & q' & Ep & R & Nx & Lx & Ls & Le). rewrite Ep.
  rewrite <- !Ls. clear Ep Ls. exists x, q'. split; [|exact Le]. clear Le R0 p. rename p' into p.
  destruct (pr_list _ _ _ _ R a Logic.I) as (La & Da). destruct (pr_list _ _ _ _ R b Logic.I) as (Lb & Db). rewrite La, Lb.
  assert (Nxl : forall n, ~ In x (lst pl n)) by (intros n H; apply Nx; apply in_or_app; left; now apply (lst_in pl n)).
  set (oa := hd_error (lst pl a)). set (ob := hd_error (lst pl b)).
  assert (Ha : forall z, oa = Some z -> In z (lst pl a)) by (intros z; apply hd_in).
  assert (Hb : forall z, ob = Some z -> In z (lst pl b)) by (intros z; apply hd_in).
  assert (Nax : oa <> Some x) by (intros E; now apply Ha, Nxl in E). assert (Nbx : ob <> Some x) by (intros E; now apply Hb, Nxl in E).
  set (h1 := set_list (set_list _ a (Some x)) b (Some x)). set (h2 := match oa with Some y => _ | None => h1 end). set (h3 := match ob with Some y => _ | None => h2 end).
  assert (T1x : forall c, thread h1 x c = if a =? c then mkThr oa None else mkThr ob None).
  { intros c. unfold h1, thread. cbn. rewrite put_eq. cbn. reflexivity. }
  assert (A1 : forall y, y <> x -> th_arb h1 y = th_arb (pth p) y) by (intros y N; unfold h1; cbn; now apply put_ne).
  assert (T1 : forall y c, y <> x -> thread h1 y c = thread (pth p) y c) by (intros y c N; unfold thread; now rewrite (A1 y N)).
  assert (S1 : forall y c, y <> x -> side h1 y c = side (pth p) y c) by (intros y c N; unfold side; now rewrite (A1 y N)).
  assert (Hit : forall o y a c, o <> Some x -> hit h1 o y a c = hit (pth p) o y a c).
  { intros [z|] y a' c N; [|reflexivity]. cbn. rewrite !S1 by congruence. reflexivity. }
  assert (Hit2 : forall o y a c, hit h2 o y a c = hit h1 o y a c).
  { intros [z|] y a' c; [|reflexivity]. cbn. unfold h2. rewrite !side_set_prev. reflexivity. }
  assert (Hx : forall o a c, o <> Some x -> hit (pth p) o x a c = false).
  { intros [z|] a' c N; [|reflexivity]. cbn. rewrite (proj2 (Nat.eqb_neq x z)) by congruence. reflexivity. }
  assert (T3 : forall y c, thread h3 y c = if hit (pth p) ob y b c then mkThr (th_next (thread h2 y b)) (Some x) else if hit (pth p) oa y a c then mkThr (th_next (thread h1 y a)) (Some x) else thread h1 y c).
  { intros y c. unfold h3. rewrite thread_set_prev, Hit2, (Hit ob) by exact Nbx. destruct (hit (pth p) ob y b c); [reflexivity|].
    unfold h2. rewrite thread_set_prev, (Hit oa) by exact Nax. reflexivity. }
  assert (L3 : forall n, th_list h3 n = if n =? b then Some x else if n =? a then Some x else th_list (pth p) n).
  { intros n. unfold h3. rewrite list_set_prev. unfold h2. rewrite list_set_prev. unfold h1. cbn. unfold put. reflexivity. }
  assert (E3 : forall y, t_a (th_arb h3 y) = t_a (th_arb h1 y) /\ t_b (th_arb h3 y) = t_b (th_arb h1 y)).
  { intros y. unfold h3. destruct (ends_set_prev h2 ob b (Some x) y) as (-> & ->). unfold h2. apply ends_set_prev. }
  constructor; cbn [with_th pth ppool pfresh].
  - intros y c d [E|H].
    + injection E as <- <- <-. destruct (E3 x) as (-> & ->). unfold h1. cbn. rewrite put_eq. auto.
    + destruct (E3 y) as (-> & ->). rewrite A1; [now apply (pr_ends _ _ _ _ R)|]. intros ->. apply Nx. apply in_or_app. left. apply in_map_iff. exists (x, (c, d)). auto.
  - cbn. constructor; [exact Nx|]. apply R.
  - intros y Hy. destruct Hy as [<-|Hy]; [exact Lx|]. now apply (pr_lt _ _ _ _ R).
  - intros n _. unfold lst. cbn [filter]. change (touch n (x, (a, b))) with ((a =? n) || (b =? n)). pose proof (lst_nodup pl n ltac:(apply (nodup_app_left _ _ (pr_nodup _ _ _ _ R)))) as Ndn.
    destruct (pr_list _ _ _ _ R n Logic.I) as (Ln & Dn). rewrite L3.
    destruct (Nat.eq_dec n b) as [->|Nb].
    + rewrite Nat.eqb_refl, orb_true_r. cbn [map fst hd_error]. split; [reflexivity|]. fold (lst pl b).
      apply (dll_push (pth p)); [exact Dn|constructor; auto| |].
      * rewrite T3, !Hx by assumption. rewrite T1x. apply Nat.eqb_neq in Nab. now rewrite Nab.
      * intros y Hy. assert (Nyx : y <> x) by (intros ->; now apply (Nxl b)). rewrite T3, hit_self. fold ob.
        rewrite (hit_other _ p pl q' a b y oa R Nab Hy Ha). destruct (match ob with Some z => y =? z | None => false end); [|now apply T1].
        unfold h2. rewrite thread_set_prev, (Hit oa) by exact Nax. rewrite (hit_other _ p pl q' a b y oa R Nab Hy Ha). now rewrite T1.
    + rewrite (proj2 (Nat.eqb_neq n b) Nb), (proj2 (Nat.eqb_neq b n)), orb_false_r by congruence.
      destruct (Nat.eq_dec n a) as [->|Na].
      * rewrite !Nat.eqb_refl. cbn [map fst hd_error]. split; [reflexivity|]. fold (lst pl a).
        apply (dll_push (pth p)); [exact Dn|constructor; auto| |].
        -- rewrite T3, !Hx by assumption. rewrite T1x. now rewrite Nat.eqb_refl.
        -- intros y Hy. assert (Nyx : y <> x) by (intros ->; now apply (Nxl a)). rewrite T3, hit_self. fold oa.
           rewrite (hit_other _ p pl q' b a y ob R ltac:(congruence) Hy Hb). rewrite !T1 by exact Nyx. reflexivity.
      * rewrite (proj2 (Nat.eqb_neq n a) Na), (proj2 (Nat.eqb_neq a n)) by congruence. fold (lst pl n). split; [exact Ln|].
        apply (dll_ext (pth p)); [|exact Dn]. intros y Hy. assert (Nyx : y <> x) by (intros ->; now apply (Nxl n)).
        rewrite T3, (hit_other _ p pl q' b n y ob R ltac:(congruence) Hy Hb), (hit_other _ p pl q' a n y oa R ltac:(congruence) Hy Ha). now apply T1.
  - apply (chain_ext (fun x => th_next (t_ta (th_arb (pth p) x)))); [|apply (pr_pool _ _ _ _ R)].
    intros y Hy. assert (Nyx : y <> x) by (intros ->; apply Nx; apply in_or_app; now right).
    assert (Nyl : forall n, ~ In y (lst pl n)).
    { intros n H. apply lst_in in H. pose proof (pr_nodup _ _ _ _ R) as Nd. apply in_split in Hy as (u & v & ->). rewrite app_assoc in Nd. apply NoDup_remove_2 in Nd.
      apply Nd. rewrite <- app_assoc. apply in_or_app. now left. }
    assert (E : th_arb h3 y = th_arb (pth p) y).
    { unfold h3. rewrite arb_set_prev by (intros E; now apply Hb, Nyl in E). unfold h2. rewrite arb_set_prev by (intros E; now apply Ha, Nyl in E). now apply A1. }
    cbn. now rewrite E.
Qed.

(** ** PairsClear *)
Definition del (x : nat) (pl : list apair) : list apair := filter (fun p => negb (fst p =? x)) pl.
Lemma del_in x pl p : In p (del x pl) <-> In p pl /\ fst p <> x.
Proof. unfold del. rewrite filter_In, negb_true_iff, Nat.eqb_neq. tauto. Qed.
Lemma del_nil x pl : ~ In x (map fst pl) -> del x pl = pl.
Proof.
  unfold del. induction pl as [|p pl IH]; cbn; [auto|]. intros N. rewrite (proj2 (Nat.eqb_neq (fst p) x)) by tauto. cbn. rewrite IH; tauto.
Qed.
Lemma del_split x e pl : NoDup (map fst pl) -> In (x, e) pl -> exists l1 l2, pl = l1 ++ (x, e) :: l2 /\ del x pl = l1 ++ l2.
Proof.
  intros Nd H. apply in_split in H as (l1 & l2 & ->). exists l1, l2. split; [reflexivity|]. rewrite map_app in Nd. cbn in Nd.
  pose proof (NoDup_remove_2 _ _ _ Nd) as N. rewrite in_app_iff in N. pose proof (del_nil x l1). pose proof (del_nil x l2). unfold del in *. rewrite filter_app. cbn. rewrite Nat.eqb_refl. cbn. f_equal; tauto.
Qed.
Lemma lst_app l1 l2 n : lst (l1 ++ l2) n = lst l1 n ++ lst l2 n.
Proof. unfold lst. now rewrite filter_app, map_app. Qed.
Lemma del_clear x e pl n : NoDup (map fst pl) -> In (x, e) pl -> touch n (x, e) = true ->
  filter (fun p => negb (touch n p)) (del x pl) = filter (fun p => negb (touch n p)) pl.
Proof.
  intros Nd H Tn. destruct (del_split x e pl Nd H) as (l1 & l2 & -> & ->). rewrite !filter_app. cbn. now rewrite Tn.
Qed.

Lemma unlink_repr p pl q x n m e : prepr_on (fun k => k <> n) p pl q -> In (x, e) pl -> e = (n, m) \/ e = (m, n) -> n <> m ->
  let p' := recycle_pair (with_th p (unlink (pth p) x m)) x in
  prepr_on (fun k => k <> n) p' (del x pl) (x :: q) /\ th_list (pth p') n = th_list (pth p) n /\ pfresh p' = pfresh p /\
  (forall y, y <> x -> In y (lst pl n) -> thread (pth p') y n = thread (pth p) y n).
Proof.
  intros R H He Nnm p'. pose proof (nodup_app_left _ _ (pr_nodup _ _ _ _ R)) as Nd.
  destruct (del_split x e pl Nd H) as (u & v & Ep & Ed).
  assert (Tm : touch m (x, e) = true) by (unfold touch; destruct He; subst e; cbn; rewrite Nat.eqb_refl, ?orb_true_r; reflexivity).
  assert (Tn : touch n (x, e) = true) by (unfold touch; destruct He; subst e; cbn; rewrite Nat.eqb_refl, ?orb_true_r; reflexivity).
  assert (Ln : forall k, k <> n -> k <> m -> touch k (x, e) = false).
  { intros k K1 K2. unfold touch. destruct He; subst e; cbn; apply orb_false_iff; split; apply Nat.eqb_neq; congruence. }
  assert (Lm : lst pl m = lst u m ++ x :: lst v m) by (rewrite Ep, lst_app; unfold lst at 2; cbn [filter]; now rewrite Tm).
  assert (Lm' : lst (del x pl) m = lst u m ++ lst v m) by (rewrite Ed; apply lst_app).
  assert (Lk : forall k, k <> n -> k <> m -> lst (del x pl) k = lst pl k).
  { intros k K1 K2. rewrite Ed, Ep, !lst_app. unfold lst at 4. cbn [filter]. now rewrite (Ln k K1 K2). }
  destruct (pr_list _ _ _ _ R m ltac:(congruence)) as (Hl & D). rewrite Lm in Hl, D.
  pose proof (lst_nodup pl m Nd) as Ndm. rewrite Lm in Ndm.
  destruct (dll_split (pth p) m x (lst v m) (lst u m) None D) as (Tx & _).
  set (l1 := lst u m) in *. set (l2 := lst v m) in *.
  set (pv := match rev l1 with [] => None | y :: _ => Some y end) in *.
  assert (Hpv : forall z, pv = Some z -> In z l1) by (intros z; unfold pv; destruct (rev l1) as [|y r] eqn:Er; [discriminate|]; intros [= <-]; apply in_rev; rewrite Er; now left).
  assert (Hnx : forall z, hd_error l2 = Some z -> In z l2) by (intros z; apply hd_in).
  set (h1 := match hd_error l2 with Some z => set_prev (pth p) z m pv | None => pth p end).
  set (h2 := match pv with Some z => set_next h1 z m (hd_error l2) | None => set_list h1 m (hd_error l2) end).
  assert (Eu : unlink (pth p) x m = h2).
  { unfold unlink. rewrite Tx. cbn [th_next th_prev]. reflexivity. }
  assert (F1 : forall y c, thread h1 y c = if hit (pth p) (hd_error l2) y m c then mkThr (th_next (thread (pth p) y m)) pv else thread (pth p) y c)
    by (intros y c; apply thread_set_prev).
  assert (F2 : forall y c, thread h2 y c = if hit (pth p) pv y m c then mkThr (hd_error l2) (th_prev (thread h1 y m)) else thread h1 y c).
  { intros y c. assert (G : thread h2 y c = thread (match pv with Some z => set_next h1 z m (hd_error l2) | None => h1 end) y c) by (unfold h2; destruct pv; reflexivity).
    rewrite G, thread_set_next. assert (G2 : hit h1 pv y m c = hit (pth p) pv y m c) by (destruct pv as [z|]; [cbn; unfold h1; now rewrite !side_set_prev|reflexivity]). now rewrite G2. }
  assert (E2 : forall y, t_a (th_arb h2 y) = t_a (th_arb (pth p) y) /\ t_b (th_arb h2 y) = t_b (th_arb (pth p) y)).
  { intros y. assert (G : t_a (th_arb h2 y) = t_a (th_arb h1 y) /\ t_b (th_arb h2 y) = t_b (th_arb h1 y)) by (unfold h2; destruct pv; [apply set_thread_bodies|auto]).
    destruct G as (-> & ->). apply ends_set_prev. }
  assert (Il1 : forall z, In z l1 -> In z (lst pl m)) by (intros z Hz; rewrite Lm; apply in_or_app; now left).
  assert (Il2 : forall z, In z l2 -> In z (lst pl m)) by (intros z Hz; rewrite Lm; apply in_or_app; right; now right).
  assert (A2 : forall y, ~ In y (lst pl m) -> th_arb h2 y = th_arb (pth p) y).
  { intros y Ny. assert (G : th_arb h2 y = th_arb h1 y).
    { unfold h2. destruct pv as [z|] eqn:Epv; [|reflexivity]. unfold set_next, set_thread. cbn. apply put_ne. intros ->. apply Ny, Il1, Hpv. reflexivity. }
    rewrite G. apply arb_set_prev. intros E. apply Ny, Il2, Hnx, E. }
  assert (O2 : forall y c, c <> m -> In y (lst pl c) -> thread h2 y c = thread (pth p) y c).
  { intros y c Nc Hy. rewrite F2, (hit_other _ p pl q m c y pv R) by (auto). rewrite F1, (hit_other _ p pl q m c y (hd_error l2) R); auto. }
  assert (L2 : forall k, th_list h2 k = if k =? m then hd_error (l1 ++ l2) else th_list (pth p) k).
  { intros k. unfold h2, pv. pose proof (rev_last l1) as Rl. destruct (rev l1) as [|z r].
    - rewrite Rl. cbn. unfold put. destruct (k =? m); [reflexivity|]. apply list_set_prev.
    - change (th_list (set_next h1 z m (hd_error l2)) k) with (th_list h1 k). unfold h1. rewrite list_set_prev. destruct (k =? m) eqn:Ek; [|reflexivity].
      apply Nat.eqb_eq in Ek. subst k. rewrite Hl, Rl. destruct (rev r); reflexivity. }
  assert (Dd : dll h2 m None (l1 ++ l2)).
  { apply (dll_remove (pth p) h2 m x l2 l1 None Ndm D). intros y Hy. rewrite F2, !F1, !hit_self.
    assert (P1 : match pv with Some z => y =? z | None => false end = match rev l1 with [] => false | z :: _ => y =? z end) by (unfold pv; destruct (rev l1); reflexivity).
    assert (P2 : match hd_error l2 with Some z => y =? z | None => false end = match l2 with [] => false | z :: _ => y =? z end) by (destruct l2; reflexivity).
    rewrite P1, P2. fold pv. destruct (match rev l1 with [] => false | z :: _ => y =? z end), (match l2 with [] => false | z :: _ => y =? z end); cbn [th_next th_prev]; try reflexivity; destruct (thread (pth p) y m); reflexivity. }
  unfold p'. rewrite Eu. clear p'.
  set (p2 := with_th p h2).
  assert (Eth : forall y c, y <> x -> thread (pth (recycle_pair p2 x)) y c = thread h2 y c).
  { intros y c Ny. unfold thread. cbn. now rewrite (put_ne _ _ _ _ Ny). }
  assert (Hxin : In x (map fst pl)) by (apply in_map_iff; exists (x, e); auto).
  split; [|split; [|split]].
  - constructor.
    + intros y a b Hy. apply del_in in Hy as (Hy & Ny). cbn [fst] in Ny. cbn. rewrite (put_ne _ _ _ _ Ny). destruct (E2 y) as (-> & ->). now apply (pr_ends _ _ _ _ R).
    + rewrite Ed. pose proof (pr_nodup _ _ _ _ R) as N0. rewrite Ep in N0. rewrite map_app in *. cbn [map fst] in N0. rewrite <- app_assoc in *. cbn [app] in *.
      pose proof (NoDup_remove_1 _ _ _ N0) as N1. pose proof (NoDup_remove_2 _ _ _ N0) as N2. rewrite app_assoc in *. apply (NoDup_Add (Add_app x (map fst u ++ map fst v) q)). auto.
    + intros y Hy. cbn. apply (pr_lt _ _ _ _ R). apply in_mid in Hy as [->|Hy]; [apply in_or_app; now left|]. apply in_app_iff in Hy as [Hy|Hy]; apply in_or_app; [left|now right].
      apply in_map_iff in Hy as (w & <- & Hw). apply del_in in Hw. apply in_map. tauto.
    + intros k Kn. destruct (Nat.eq_dec k m) as [->|Km].
      * rewrite Lm'. split; [cbn; now rewrite L2, Nat.eqb_refl|]. apply (dll_ext h2); [|exact Dd]. intros y Hy. apply Eth. intros ->. now apply NoDup_remove_2 in Ndm.
      * rewrite (Lk k Kn Km). destruct (pr_list _ _ _ _ R k Kn) as (Hk & Dk). split; [cbn; rewrite L2, (proj2 (Nat.eqb_neq k m) Km); exact Hk|].
        apply (dll_ext (pth p)); [|exact Dk]. intros y Hy. rewrite Eth; [now apply O2|]. intros ->. rewrite <- (Lk k Kn Km) in Hy. apply lst_in in Hy. apply in_map_iff in Hy as (w & Ew & Hw). apply del_in in Hw. tauto.
    + split; [reflexivity|]. cbn. rewrite put_eq. cbn. apply (chain_ext (fun x => th_next (t_ta (th_arb (pth p) x)))); [|apply (pr_pool _ _ _ _ R)].
      intros y Hy. cbn beta.
      assert (Nyp : ~ In y (map fst pl)).
      { intros Hp. pose proof (pr_nodup _ _ _ _ R) as N0. apply in_split in Hy as (s & t & ->). rewrite app_assoc in N0. apply NoDup_remove_2 in N0. apply N0. rewrite <- app_assoc. apply in_or_app. now left. }
      rewrite put_ne by (intros ->; contradiction). rewrite A2; [reflexivity|]. intros Hm. apply Nyp. now apply (lst_in pl m).
  - cbn. rewrite L2, (proj2 (Nat.eqb_neq n m) Nnm). reflexivity.
  - reflexivity.
  - intros y Ny Hy. rewrite (Eth y n Ny). now apply O2.
Qed.

Lemma clear_loop_repr n : forall r fuel p pl q cur, length r <= fuel -> prepr_on (fun k => k <> n) p pl q -> lst pl n = r ->
  chain (fun x => th_next (thread (pth p) x n)) cur r -> th_list (pth p) n = None ->
  exists p' q', clear_loop fuel p n cur = Some p' /\ prepr_on (fun k => k <> n) p' (filter (fun e => negb (touch n e)) pl) q' /\ th_list (pth p') n = None /\ pfresh p' = pfresh p /\ length (filter (fun e => negb (touch n e)) pl) + length q' = length pl + length q.
Proof.
  induction r as [|x r IH]; intros fuel p pl q cur Lf R Lr Ch Ln.
  - cbn in Ch. subst cur. exists p, q. assert (E : filter (fun e => negb (touch n e)) pl = pl).
    { unfold lst in Lr. apply map_eq_nil in Lr. clear - Lr. induction pl as [|e pl IH]; cbn in *; [reflexivity|]. destruct (touch n e); [discriminate|]. cbn. now rewrite IH. }
    rewrite E. destruct fuel; auto.
  - destruct Ch as (-> & Ch). destruct fuel as [|fuel]; [cbn in Lf; lia|]. cbn in Lf.
    assert (Hx : exists e, In (x, e) pl /\ touch n (x, e) = true).
    { assert (Hx : In x (lst pl n)) by (rewrite Lr; now left). unfold lst in Hx. apply in_map_iff in Hx as ([y e] & <- & Hx). apply filter_In in Hx. now exists e. }
    destruct Hx as ([a b] & Hx & Tx). destruct (pr_ends _ _ _ _ R _ _ _ Hx) as (Ea & Eb & Nab).
    pose proof (nodup_app_left _ _ (pr_nodup _ _ _ _ R)) as Nd.
    assert (Lr' : lst (del x pl) n = r).
    { pose proof (lst_nodup pl n Nd) as Nn. rewrite Lr in Nn. apply NoDup_cons_iff in Nn as (N1 & N2). destruct (del_split x (a, b) pl Nd Hx) as (u & v & Ep & ->).
      rewrite Ep, lst_app in Lr. unfold lst at 2 in Lr. cbn [filter] in Lr. rewrite Tx in Lr. cbn [map fst] in Lr. fold (lst v n) in Lr. rewrite lst_app.
      destruct (lst u n) as [|w l] eqn:El; [now injection Lr|]. cbn [app] in Lr. injection Lr as -> Lr. exfalso.
      rewrite Ep, map_app in Nd. cbn in Nd. apply NoDup_remove_2 in Nd. apply Nd. apply in_or_app. left. apply (lst_in u n). rewrite El. now left. }
    assert (Nxr : forall y, In y r -> y <> x /\ In y (lst pl n)).
    { intros y Hy. split; [|rewrite Lr; now right]. pose proof (lst_nodup pl n Nd) as Nn. rewrite Lr in Nn. apply NoDup_cons_iff in Nn as (N1 & N2). intros ->. contradiction. }
    assert (Ld : S (length (del x pl)) = length pl) by (destruct (del_split x (a, b) pl Nd Hx) as (u & v & Ep & ->); rewrite Ep, !app_length; cbn; lia).
    cbn [clear_loop]. rewrite Ea, Eb.
    unfold touch in Tx. cbn in Tx. cbn beta in Ch.
    assert (Et : thread (pth p) x n = if a =? n then t_ta (th_arb (pth p) x) else t_tb (th_arb (pth p) x)) by (unfold thread; now rewrite Ea). rewrite Et in Ch. clear Et.
    destruct (a =? n) eqn:En.
    + apply Nat.eqb_eq in En. subst a. destruct (unlink_repr p pl q x n b (n, b) R Hx ltac:(auto) Nab) as (R' & Ln' & Pf & Th).
      destruct (IH fuel _ _ _ (th_next (t_ta (th_arb (pth p) x))) ltac:(lia) R' Lr') as (p' & q' & A & Bq & C & Dd & Le); [| |].
      * apply (chain_ext (fun x => th_next (thread (pth p) x n))); [|exact Ch]. intros y Hy. destruct (Nxr y Hy). now rewrite Th.
      * rewrite Ln'. exact Ln.
      * rewrite (del_clear x (n, b)) in Bq, Le by (auto; unfold touch; cbn; now rewrite Nat.eqb_refl). exists p', q'. cbn [length] in Le. split; [exact A|]. split; [exact Bq|]. split; [exact C|]. split; [now rewrite Dd|lia].
    + cbn in Tx. apply Nat.eqb_eq in Tx. subst b. destruct (unlink_repr p pl q x n a (a, n) R Hx ltac:(auto) ltac:(congruence)) as (R' & Ln' & Pf & Th).
      destruct (IH fuel _ _ _ (th_next (t_tb (th_arb (pth p) x))) ltac:(lia) R' Lr') as (p' & q' & A & Bq & C & Dd & Le); [| |].
      * apply (chain_ext (fun x => th_next (thread (pth p) x n))); [|exact Ch]. intros y Hy. destruct (Nxr y Hy). now rewrite Th.
      * rewrite Ln'. exact Ln.
      * rewrite (del_clear x (a, n)) in Bq, Le by (auto; unfold touch; cbn; now rewrite Nat.eqb_refl, orb_true_r). exists p', q'. cbn [length] in Le. split; [exact A|]. split; [exact Bq|]. split; [exact C|]. split; [now rewrite Dd|lia].
Qed.

Lemma dll_chain h n : forall l prev, dll h n prev l -> chain (fun x => th_next (thread h x n)) (hd_error l) l.
Proof.
  induction l as [|x r IH]; intros prev D; [reflexivity|]. destruct D as (A & D). split; [reflexivity|]. rewrite A. cbn. now apply (IH (Some x)).
Qed.
Lemma bounded_length l k : NoDup l -> (forall x, In x l -> x < k) -> length l <= k.
Proof. intros N B. rewrite <- (seq_length k 0). apply NoDup_incl_length; [exact N|]. intros x Hx. apply in_seq. specialize (B x Hx). lia. Qed.
Lemma lst_bound p pl q n : prepr p pl q -> length (lst pl n) <= pfresh p.
Proof.
  intros R. apply bounded_length; [apply lst_nodup; apply (nodup_app_left _ _ (pr_nodup _ _ _ _ R))|].
  intros x Hx. apply (pr_lt _ _ _ _ R). apply in_or_app. left. now apply (lst_in pl n).
Qed.
Lemma lst_clear pl n m : lst (filter (fun e => negb (touch n e)) pl) m = map fst (filter (fun e => negb (touch n e) && touch m e) pl).
Proof. unfold lst. f_equal. induction pl as [|e pl IH]; cbn; [reflexivity|]. destruct (touch n e); cbn; [exact IH|]. destruct (touch m e); cbn; now rewrite IH. Qed.

Lemma clear_repr p pl q n : prepr p pl q -> exists p' q', h_pairs_clear p n = Some p' /\ prepr p' (filter (fun e => negb (touch n e)) pl) q' /\ pfresh p' = pfresh p /\ length (filter (fun e => negb (touch n e)) pl) + length q' = length pl + length q.
Proof.
  intros R. unfold h_pairs_clear. destruct (pr_list _ _ _ _ R n Logic.I) as (Hn & Dn).
  destruct (clear_loop_repr n (lst pl n) (pfresh p) (with_th p (set_list (pth p) n None)) pl q (th_list (pth p) n)) as (p' & q' & A & B & C & D1 & D2).
  - now apply (lst_bound p pl q).
  - constructor; [exact (pr_ends _ _ _ _ R)|exact (pr_nodup _ _ _ _ R)|exact (pr_lt _ _ _ _ R)| |exact (pr_pool _ _ _ _ R)].
    intros k Kn. destruct (pr_list _ _ _ _ R k Logic.I) as (Hk & Dk). split; [cbn; now rewrite put_ne|]. apply (dll_ext (pth p)); [reflexivity|exact Dk].
  - reflexivity.
  - rewrite Hn. apply (chain_ext (fun x => th_next (thread (pth p) x n))); [reflexivity|]. now apply (dll_chain _ n _ None).
  - cbn. now rewrite put_eq.
  - exists p', q'. split; [exact A|]. split; [|split; [exact D1|exact D2]]. constructor; try apply B. intros k _. destruct (Nat.eq_dec k n) as [->|Kn]; [|now apply (pr_list _ _ _ _ B)].
    rewrite lst_clear. assert (E : filter (fun e => negb (touch n e) && touch n e) pl = []).
    { clear. induction pl as [|e pl IH]; cbn; [reflexivity|]. destruct (touch n e); exact IH. }
    rewrite E. split; [exact C|exact Logic.I].
Qed.
