(** The spatial hash: handles, reference counts and the pool. *)
From Coq Require Import ZArith Bool List Arith Lia Permutation.
From Verif Require Import Num SpecSpaceHash.
From Verif.Model Require Import Vector BB SpaceHash.
Import ListNotations.
Local Open Scope nat_scope.

Definition b2n (b : bool) : nat := if b then 1 else 0.
Notation mem h l := (existsb (Nat.eqb h) l).
Lemma mem_in h l : mem h l = true <-> In h l.
Proof. rewrite existsb_exists. split; [intros (x & I & E); apply Nat.eqb_eq in E; now subst|intros I; exists h; split; [exact I|apply Nat.eqb_refl]]. Qed.
Lemma mem_out h l : mem h l = false <-> ~ In h l.
Proof. rewrite <- mem_in. destruct (mem h l); split; congruence. Qed.
Lemma count_upd (f : nat -> bool) i x L : NoDup L -> In i L -> length (filter (upd f i x) L) + b2n (f i) = length (filter f L) + b2n x.
Proof.
  induction 1 as [|y L N ND IH]; [intros []|]. cbn [filter In]. intros [->|I].
  - assert (E : filter (upd f i x) L = filter f L). { clear IH ND. induction L as [|z L IH]; [reflexivity|]. cbn [filter]. rewrite IH by (intros Q; apply N; now right). unfold upd. destruct (Nat.eqb_spec z i) as [->|_]; [exfalso; apply N; now left|reflexivity]. }
    rewrite E. unfold upd at 1. rewrite Nat.eqb_refl. destruct (f i), x; cbn [length b2n]; lia.
  - specialize (IH I). unfold upd at 1. destruct (Nat.eqb_spec y i) as [->|_]; [contradiction|]. destruct (f y); cbn [length]; lia.
Qed.
Section P.
Context {T : Type} {NT : Num T}.
Notation hash := (hash T).
Notation obj s h := (h_obj (heap s h)).
Notation ret s h := (h_retains (heap s h)).
Notation stp s h := (h_stamp (heap s h)).
Definition refs (s : hash) (h : nat) : nat := length (filter (fun i => mem h (table s i)) (seq 0 (numcells s))).
Record Inv (s : hash) : Prop := {
  i_nd : NoDup (handles s);
  i_live : forall h, In h (handles s) -> exists o, obj s h = Some o;
  i_inj : forall h h' o, In h (handles s) -> In h' (handles s) -> obj s h = Some o -> obj s h' = Some o -> h = h';
  i_tab : forall i h, In h (table s i) -> i < numcells s /\ (In h (handles s) \/ obj s h = None);
  i_tnd : forall i, NoDup (table s i);
  i_ret : forall h, in_use s h -> ret s h = Z.of_nat (b2n (mem h (handles s)) + refs s h);
  i_pnd : NoDup (pool s);
  i_pool : forall h, In h (pool s) -> ~ in_use s h;
  i_pos : 0 < hstamp s }.
Definition Old (s : hash) : Prop := forall h, in_use s h -> stp s h < hstamp s.
(** equal but for the stamps *)
Record same (s s' : hash) : Prop := { sm_n : numcells s' = numcells s; sm_d : celldim s' = celldim s; sm_t : table s' = table s; sm_h : handles s' = handles s; sm_p : pool s' = pool s; sm_s : hstamp s' = hstamp s;
  sm_o : forall h, obj s' h = obj s h; sm_r : forall h, ret s' h = ret s h }.
Lemma same_refl s : same s s. Proof. constructor; auto. Qed.
Lemma same_trans s1 s2 s3 : same s1 s2 -> same s2 s3 -> same s1 s3.
Proof. intros [] []. constructor; intros; etransitivity; eauto. Qed.
Lemma same_use (s s' : hash) h : same s s' -> (in_use s' h <-> in_use s h).
Proof. intros []. unfold in_use. rewrite sm_h0. split; (intros [A|(i & A)]; [auto|right; exists i]); [rewrite <- sm_t0|rewrite sm_t0]; auto. Qed.
Lemma same_refs (s s' : hash) h : same s s' -> refs s' h = refs s h.
Proof. intros []. unfold refs. rewrite sm_n0. now rewrite sm_t0. Qed.
Lemma Inv_same (s s' : hash) : same s s' -> Inv s -> Inv s'.
Proof.
  intros S I. pose proof (same_use s s') as U. pose proof (same_refs s s') as Rf. destruct I. destruct S as [n d t hd p st o r]. constructor.
  - now rewrite hd.
  - intros h. rewrite hd, o. auto.
  - intros h h' x. rewrite hd, !o. eauto.
  - intros i h. rewrite t, n, hd, o. auto.
  - intros i. rewrite t. auto.
  - intros h A. rewrite r, hd, Rf by (constructor; auto). apply i_ret0. apply U; [constructor; auto|exact A].
  - now rewrite p.
  - intros h. rewrite p. intros A B. apply (i_pool0 h A). apply U; [constructor; auto|exact B].
  - now rewrite st.
Qed.
Lemma same_stamp (s : hash) h t : same s (set_stamp s h t).
Proof. constructor; auto; intros x; cbn; unfold upd; destruct (Nat.eqb_spec x h) as [->|]; reflexivity. Qed.

(** ** releasing *)
Lemma release_list : forall L (s : hash), NoDup L -> let s' := fold_left release L s in
  numcells s' = numcells s /\ celldim s' = celldim s /\ table s' = table s /\ handles s' = handles s /\ hstamp s' = hstamp s /\
  (forall h, obj s' h = obj s h /\ stp s' h = stp s h /\ ret s' h = (ret s h - Z.of_nat (b2n (mem h L)))%Z) /\
  (forall h, In h (pool s') <-> In h (pool s) \/ In h L /\ ret s h = 1%Z) /\
  (NoDup (pool s) -> (forall h, In h L -> ~ In h (pool s)) -> NoDup (pool s')).
Proof.
  induction L as [|x L IH]; intros s ND; cbv zeta; cbn [fold_left].
  { repeat split; auto; cbn; try lia; try tauto. }
  inversion ND as [|? ? N ND']; subst. specialize (IH (release s x) ND'). cbv zeta in IH. destruct IH as (A1 & A2 & A3 & A4 & A5 & A6 & A7 & A8).
  assert (R1 : numcells (release s x) = numcells s /\ celldim (release s x) = celldim s /\ table (release s x) = table s /\ handles (release s x) = handles s /\ hstamp (release s x) = hstamp s) by (unfold release; destruct (_ =? 0)%Z; cbn; auto). destruct R1 as (B1 & B2 & B3 & B4 & B5).
  assert (R2 : forall h, obj (release s x) h = obj s h /\ stp (release s x) h = stp s h /\ ret (release s x) h = (if Nat.eqb h x then ret s h - 1 else ret s h)%Z) by (intros h; unfold release; destruct (_ =? 0)%Z; cbn; unfold upd; destruct (Nat.eqb_spec h x) as [->|]; auto).
  assert (R3 : pool (release s x) = if (ret s x =? 1)%Z then x :: pool s else pool s). { unfold release. assert (E : (ret s x - 1 =? 0)%Z = (ret s x =? 1)%Z) by (destruct (Z.eqb_spec (ret s x - 1) 0), (Z.eqb_spec (ret s x) 1); lia || reflexivity). rewrite E. destruct (_ =? 1)%Z; reflexivity. }
  rewrite A1, A2, A3, A4, A5, B1, B2, B3, B4, B5. repeat (split; [reflexivity|]). split; [|split].
  - intros h. destruct (A6 h) as (C1 & C2 & C3), (R2 h) as (D1 & D2 & D3). rewrite C1, C2, C3, D1, D2, D3. repeat split; auto. cbn [existsb]. destruct (Nat.eqb_spec h x) as [->|NE]; cbn [orb b2n]; [|lia]. rewrite (proj2 (mem_out x L) N). cbn. lia.
  - intros h. rewrite A7, R3. destruct (R2 h) as (_ & _ & D). rewrite D. cbn [In].
    assert (F1 : In h L -> Nat.eqb h x = false) by (intros I; apply Nat.eqb_neq; intros ->; contradiction). destruct (Z.eqb_spec (ret s x) 1) as [E|E]; cbn [In].
    + split; [intros [[<-|A]|[A B]]; auto; right; split; auto; rewrite (F1 A) in B; exact B|intros [A|[[<-|A] B]]; auto]. right. split; [exact A|]. rewrite (F1 A). exact B.
    + split; [intros [A|[A B]]; auto; right; split; auto; rewrite (F1 A) in B; exact B|intros [A|[[<-|A] B]]; auto; [contradiction|]]. right. split; [exact A|]. rewrite (F1 A). exact B.
  - intros P D. apply A8; rewrite R3; destruct (_ =? 1)%Z; auto.
    + constructor; [|exact P]. apply D. now left.
    + intros h I [->|J]; [contradiction|]. apply (D h); [now right|exact J].
    + intros h I. apply D. now right.
Qed.
Lemma refs_set (s : hash) i l h : i < numcells s -> refs (set_cell s i l) h + b2n (mem h (table s i)) = refs s h + b2n (mem h l).
Proof.
  intros L. unfold refs. cbn. rewrite <- (count_upd (fun j => mem h (table s j)) i (mem h l) (seq 0 (numcells s))); [|apply seq_NoDup|apply in_seq; lia]. f_equal. f_equal. apply filter_ext. intros j. unfold upd. destruct (j =? i); reflexivity.
Qed.
Lemma refs_pos (s : hash) h i : Inv s -> In h (table s i) -> 0 < refs s h.
Proof.
  intros I A. unfold refs. destruct (i_tab s I i h A) as [L _]. assert (In i (filter (fun i => mem h (table s i)) (seq 0 (numcells s)))) by (apply filter_In; split; [apply in_seq; lia|now apply mem_in]). destruct (filter _ _); [contradiction|cbn; lia].
Qed.
Lemma refs_in (s : hash) h : 0 < refs s h -> exists i, In h (table s i).
Proof. unfold refs. destruct (filter _ _) as [|i l] eqn:E; [cbn; lia|]. intros _. exists i. assert (In i (i :: l)) as J by now left. rewrite <- E in J. apply filter_In in J as [_ J]. now apply mem_in. Qed.
Lemma drop_ok (s : hash) i L K : Inv s -> i < numcells s -> NoDup L -> NoDup K -> (forall h, In h (table s i) <-> In h L \/ In h K) -> (forall h, In h L -> ~ In h K) -> Inv (set_cell (fold_left release L s) i K).
Proof.
  intros I Li NL NK TK DJ. destruct (release_list L s NL) as (A1 & A2 & A3 & A4 & A5 & A6 & A7 & A8). set (s1 := fold_left release L s) in *.
  assert (TB : forall j, table (set_cell s1 i K) j = if j =? i then K else table s j) by (intros j; cbn; unfold upd; rewrite A3; reflexivity).
  assert (SUB : forall j h, In h (table (set_cell s1 i K) j) -> In h (table s j)) by (intros j h; rewrite TB; destruct (Nat.eqb_spec j i) as [->|]; auto; intros Q; apply TK; auto).
  assert (USE : forall h, in_use (set_cell s1 i K) h -> in_use s h) by (intros h [A|(j & A)]; [left; cbn in A; congruence|right; exists j; auto]).
  assert (RF : forall h, refs (set_cell s1 i K) h + b2n (mem h L) = refs s h).
  { intros h. assert (E1 : refs (set_cell s1 i K) h = refs (set_cell s i K) h) by (unfold refs; cbn; rewrite A1, A3; reflexivity). pose proof (refs_set s i K h Li) as E2. rewrite E1. assert (E3 : b2n (mem h (table s i)) = b2n (mem h L) + b2n (mem h K)). { destruct (mem h (table s i)) eqn:X.
      - apply mem_in in X. apply TK in X as [X|X]; [rewrite (proj2 (mem_in _ _) X), (proj2 (mem_out _ _) (DJ h X)); reflexivity|]. rewrite (proj2 (mem_in _ _) X). destruct (mem h L) eqn:Y; [|reflexivity]. apply mem_in in Y. exfalso. eapply DJ; eauto.
      - apply mem_out in X. rewrite (proj2 (mem_out h L)), (proj2 (mem_out h K)); [reflexivity| |]; intros Y; apply X; apply TK; auto. } lia. }
  pose proof I as I'. destruct I. constructor.
  - cbn. now rewrite A4.
  - intros h. cbn. rewrite A4. destruct (A6 h) as (-> & _). auto.
  - intros h h' o. cbn. rewrite A4. destruct (A6 h) as (-> & _), (A6 h') as (-> & _). eauto.
  - intros j h Q. apply SUB in Q. destruct (i_tab0 j h Q) as [X Y]. cbn. rewrite A1, A4. destruct (A6 h) as (-> & _). auto.
  - intros j. rewrite TB. destruct (j =? i); auto.
  - intros h U. pose proof (USE h U) as U'. pose proof (RF h) as E1. pose proof (i_ret0 h U') as E2. destruct (A6 h) as (_ & _ & E). change (ret (set_cell s1 i K) h) with (ret s1 h). change (handles (set_cell s1 i K)) with (handles s1). rewrite A4, E. lia.
  - cbn. apply A8; auto. intros h Q P. apply (i_pool0 h P). right. exists i. apply TK. auto.
  - intros h. cbn. rewrite A7. intros [P|[Q R]] U; [apply (i_pool0 h P); auto|]. assert (U0 : In h (table s i)) by (apply TK; auto). rewrite (i_ret0 h) in R by (right; eauto). pose proof (RF h) as E. rewrite (proj2 (mem_in h L) Q) in E. cbn [b2n] in E.
    pose proof (refs_pos s h i I' U0) as RP. assert (RZ : refs (set_cell s1 i K) h = 0) by lia. assert (MZ : mem h (handles s) = false) by (destruct (mem h (handles s)); cbn [b2n] in R; [lia|reflexivity]).
    destruct U as [U|(j & U)]; [cbn in U; rewrite A4 in U; apply mem_out in MZ; contradiction|]. assert (QQ := SUB j h U). destruct (i_tab0 j h QQ) as [Lj _].
    assert (0 < refs (set_cell s1 i K) h). { unfold refs. assert (In j (filter (fun k => mem h (table (set_cell s1 i K) k)) (seq 0 (numcells (set_cell s1 i K))))) by (apply filter_In; split; [apply in_seq; cbn; rewrite A1; lia|now apply mem_in]). destruct (filter _ _); [contradiction|cbn; lia]. } lia.
  - cbn. now rewrite A5.
Qed.
(** ** hashing *)
Lemma retain_obs (s : hash) h x : obj (retain s h) x = obj s x /\ stp (retain s h) x = stp s x /\ ret (retain s h) x = (ret s x + Z.of_nat (b2n (Nat.eqb x h)))%Z.
Proof. cbn. unfold upd. destruct (Nat.eqb_spec x h) as [->|]; cbn; repeat split; lia. Qed.
Lemma hash_in_frame (s : hash) h i : let s' := hash_in s h i in numcells s' = numcells s /\ celldim s' = celldim s /\ handles s' = handles s /\ pool s' = pool s /\ hstamp s' = hstamp s /\ (forall x, obj s' x = obj s x /\ stp s' x = stp s x) /\
  (forall j x, In x (table s' j) <-> In x (table s j) \/ (j = i /\ x = h)).
Proof.
  cbv zeta. unfold hash_in. destruct (mem h (table s i)) eqn:M.
  - apply mem_in in M. repeat (split; [reflexivity|]). split; [auto|]. intros j x. split; [auto|intros [A|[-> ->]]; auto].
  - repeat (split; [reflexivity|]). split; [intros x; destruct (retain_obs s h x) as (A & B & _); auto|]. intros j x. cbn. unfold upd. destruct (Nat.eqb_spec j i) as [->|NE]; cbn [In]; [split; [intros [<-|A]; auto|intros [A|[_ ->]]; auto]|]. split; [auto|intros [A|[A _]]; auto; contradiction].
Qed.
Lemma hash_in_ok (s : hash) h i : Inv s -> In h (handles s) -> i < numcells s -> Inv (hash_in s h i).
Proof.
  intros I H Li. pose proof (hash_in_frame s h i) as Fr. cbv zeta in Fr. destruct Fr as (F1 & F2 & F3 & F4 & F5 & F6 & F7).
  assert (USE : forall x, in_use (hash_in s h i) x <-> in_use s x).
  { intros x. unfold in_use. rewrite F3. split; (intros [A|(j & A)]; [auto|]); [apply F7 in A as [A|[_ ->]]; [right; eauto|auto]|right; exists j; apply F7; auto]. }
  destruct (mem h (table s i)) eqn:M; [unfold hash_in; rewrite M; exact I|]. pose proof I as I'. destruct I. constructor; rewrite ?F1, ?F3, ?F4, ?F5; auto.
  - intros x. destruct (F6 x) as [-> _]. auto.
  - intros x y o. destruct (F6 x) as [-> _], (F6 y) as [-> _]. eauto.
  - intros j x Q. destruct (F6 x) as [-> _]. apply F7 in Q as [Q|[-> ->]]; auto.
  - intros j. unfold hash_in. rewrite M. cbn. unfold upd. destruct (Nat.eqb_spec j i) as [->|]; auto. constructor; auto. now apply mem_out.
  - intros x U. apply USE in U. pose proof (refs_set (retain s h) i (h :: table s i) x Li) as E. cbn [existsb] in E. change (table (retain s h) i) with (table s i) in E. change (refs (retain s h) x) with (refs s x) in E.
    assert (EH : hash_in s h i = set_cell (retain s h) i (h :: table s i)) by (unfold hash_in; rewrite M; reflexivity). rewrite EH. change (ret (set_cell (retain s h) i (h :: table s i)) x) with (ret (retain s h) x). destruct (retain_obs s h x) as (_ & _ & ->). rewrite (i_ret0 x U). destruct (Nat.eqb_spec x h) as [->|NE]; cbn [orb b2n] in *; [rewrite M in E; cbn [b2n] in E|]; lia.
  - intros x P U. apply USE in U. exact (i_pool0 x P U).
Qed.
Lemma hash_fold : forall is (s : hash) h, Inv s -> In h (handles s) -> (forall i, In i is -> i < numcells s) -> let s' := fold_left (fun s i => hash_in s h i) is s in
  Inv s' /\ numcells s' = numcells s /\ celldim s' = celldim s /\ handles s' = handles s /\ pool s' = pool s /\ hstamp s' = hstamp s /\ (forall x, obj s' x = obj s x /\ stp s' x = stp s x) /\
  (forall j x, In x (table s' j) <-> In x (table s j) \/ (In j is /\ x = h)).
Proof.
  induction is as [|i is IH]; intros s h I H L; cbv zeta; cbn [fold_left]; [repeat (split; [auto|]); intros; tauto|].
  pose proof (hash_in_frame s h i) as Fr. cbv zeta in Fr. destruct Fr as (F1 & F2 & F3 & F4 & F5 & F6 & F7). destruct (IH (hash_in s h i) h) as (J & A1 & A2 & A3 & A4 & A5 & A6 & A7); [apply hash_in_ok; auto; apply L; now left|now rewrite F3|intros k K; rewrite F1; apply L; now right|].
  rewrite A1, A2, A3, A4, A5. repeat (split; [assumption|]). split; [intros x; destruct (A6 x) as [-> ->]; auto|]. intros j x. rewrite A7, F7. cbn [In]. intuition (subst; auto).
Qed.
Lemma slot_lt n c : 0 < n -> slot n c < n.
Proof. intros P. unfold slot, hash_func. set (a := N.lxor _ _). assert (N.of_nat n <> 0%N) by lia. pose proof (N.mod_lt a (N.of_nat n) H). lia. Qed.
Lemma slots_lt (s : hash) x : 0 < numcells s -> forall i, In i (slots s x) -> i < numcells s.
Proof. intros P i I. unfold slots in I. apply in_map_iff in I as (c & <- & _). now apply slot_lt. Qed.
End P.
