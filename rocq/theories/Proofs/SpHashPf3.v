(** The spatial hash: rehashing, pairs, segment queries, histories. *)
From Coq Require Import ZArith Bool List Arith Lia Permutation.
From Verif Require Import Num SpecSpaceHash SpecIndex.
From Verif.Model Require Import Vector BB SpaceHash.
From Verif.Proofs Require Import SpHashPf SpHashPf2.
Import ListNotations.
Local Open Scope nat_scope.
Section P.
Context {T : Type} {NT : Num T}.
Notation hash := (hash T).
Notation obj s h := (h_obj (heap s h)).
Notation ret s h := (h_retains (heap s h)).
Notation stp s h := (h_stamp (heap s h)).
(** ** clearing the table *)
Lemma clear_cell_ok (s : hash) i : Inv s -> i < numcells s -> let s' := clear_cell s i in
  Inv s' /\ numcells s' = numcells s /\ celldim s' = celldim s /\ handles s' = handles s /\ hstamp s' = hstamp s /\ (forall h, obj s' h = obj s h /\ stp s' h = stp s h) /\
  (forall j, table s' j = if j =? i then [] else table s j).
Proof.
  intros I L. cbv zeta. unfold clear_cell. destruct (release_list (table s i) s (i_tnd s I i)) as (A1 & A2 & A3 & A4 & A5 & A6 & A7 & A8).
  split; [|split; [exact A1|split; [exact A2|split; [exact A4|split; [exact A5|split]]]]].
  - apply drop_ok; auto; [apply (i_tnd s I)|constructor|intros h; cbn [In]; tauto].
  - intros h. destruct (A6 h) as (B & C & _). auto.
  - intros j. cbn. unfold upd. rewrite A3. reflexivity.
Qed.
Lemma clear_fold : forall is (s : hash), Inv s -> (forall i, In i is -> i < numcells s) -> let s' := fold_left clear_cell is s in
  Inv s' /\ numcells s' = numcells s /\ celldim s' = celldim s /\ handles s' = handles s /\ hstamp s' = hstamp s /\ (forall h, obj s' h = obj s h /\ stp s' h = stp s h) /\
  (forall j, In j is -> table s' j = []) /\ (forall j, table s j = [] -> table s' j = []).
Proof.
  induction is as [|i is IH]; intros s I L; cbv zeta; cbn [fold_left]; [repeat (split; [auto|]); [intros ? []|auto]|].
  pose proof (clear_cell_ok s i I ltac:(apply L; now left)) as C. cbv zeta in C. destruct C as (J & A1 & A2 & A3 & A4 & A5 & A6).
  specialize (IH (clear_cell s i) J ltac:(intros j Q; rewrite A1; apply L; now right)). cbv zeta in IH. destruct IH as (K & B1 & B2 & B3 & B4 & B5 & B6 & B7).
  split; [exact K|]. rewrite B1, B2, B3, B4. repeat (split; [assumption|]). split; [intros h; destruct (B5 h) as [-> ->]; apply A5|]. split.
  - intros j [<-|Q]; [apply B7; rewrite A6, Nat.eqb_refl; reflexivity|auto].
  - intros j Q. apply B7. rewrite A6. destruct (j =? i); auto.
Qed.
Lemma clear_ok (s : hash) : Inv s -> let s' := clear_table s in
  Inv s' /\ numcells s' = numcells s /\ celldim s' = celldim s /\ handles s' = handles s /\ hstamp s' = hstamp s /\ (forall h, obj s' h = obj s h /\ stp s' h = stp s h) /\ (forall j, table s' j = []).
Proof.
  intros I. cbv zeta. unfold clear_table. destruct (clear_fold (seq 0 (numcells s)) s I) as (A & B & C & D & E & G & K & _); [intros i Q; apply in_seq in Q; lia|].
  repeat (split; [assumption|]). intros j. destruct (table (fold_left clear_cell (seq 0 (numcells s)) s) j) as [|h l] eqn:Z; [reflexivity|]. exfalso.
  destruct (i_tab _ A j h) as [L _]; [rewrite Z; now left|]. rewrite B in L. rewrite K in Z; [discriminate|]. apply in_seq. lia.
Qed.
Lemma clear_old (s : hash) : Inv s -> Old s -> Old (clear_table s).
Proof. intros I O h U. destruct (clear_ok s I) as (_ & _ & _ & A & B & C & D). rewrite B. destruct (C h) as [_ ->]. apply O. destruct U as [U|(j & U)]; [left; congruence|rewrite D in U; destruct U]. Qed.

(** ** rehashing one object *)
Definition clean (s : hash) : Prop := forall i h, In h (table s i) -> In h (handles s).
Definition met (s : hash) (h o : nat) : Prop := forall i h' o', In h (table s i) -> In h' (table s i) -> live s o' h' -> o' <> o -> stp s h' = hstamp s.
Lemma rehash_cell_ok (s : hash) h o i out : Inv s -> fresh s -> clean s -> live s o h -> i < numcells s -> reported s (Some o) out -> met s h o ->
  let '(s', out') := rehash_cell h o (s, out) i in
  Inv s' /\ fresh s' /\ clean s' /\ numcells s' = numcells s /\ celldim s' = celldim s /\ hstamp s' = hstamp s /\ handles s' = handles s /\ (forall x, obj s' x = obj s x) /\ reported s' (Some o) out' /\ met s' h o /\
  (forall j x, In x (table s' j) <-> In x (table s j) \/ (j = i /\ x = h)) /\
  (forall x, stp s' x = stp s x \/ (In x (table s i) /\ ~ In h (table s i)) /\ stp s' x = hstamp s) /\ (forall x, stp s x = hstamp s -> stp s' x = hstamp s).
Proof.
  intros I Fr Cl Lv Li Rp Mt. unfold rehash_cell. destruct (mem h (table s i)) eqn:M.
  { apply mem_in in M. do 4 (split; [assumption || reflexivity|]). do 2 (split; [reflexivity|]). split; [reflexivity|]. split; [auto|]. split; [exact Rp|]. split; [exact Mt|]. split; [|auto]. intros j x. split; [auto|intros [Q|[-> ->]]; auto]. }
  apply mem_out in M. set (s0 := retain s h). pose proof (hash_in_ok s h i I (proj1 Lv) Li) as Ih. pose proof (hash_in_frame s h i) as Fh. cbv zeta in Fh. destruct Fh as (F1 & F2 & F3 & F4 & F5 & F6 & F7).
  assert (EH : hash_in s h i = set_cell s0 i (h :: table s i)) by (unfold hash_in; rewrite (proj2 (mem_out h (table s i)) M); reflexivity).
  set (s1 := hash_in s h i) in *.
  assert (R1 : reported s1 (Some o) out) by (eapply reported_keeps; eauto).
  pose proof (walk_ok (table s i) s1 (Some o) out Ih R1 ltac:(intros x X; left; rewrite F3; eauto)) as W. assert (Ew : walk s1 (table s i) (Some o) out = let '(y, a, b) := walk s0 (table s i) (Some o) out in (with_table y (upd (table s0) i (h :: table s i)), a, b)) by (rewrite EH; apply walk_with_table). rewrite Ew in W. clear Ew. pose proof (walk_table (table s i) s0 (Some o) out) as WT0.
  unfold query_helper. change (table s0 i) with (table s i). destruct (walk s0 (table s i) (Some o) out) as [[s2 out2] again]. cbn [fst] in WT0. destruct W as (A1 & A2 & A3 & A4 & A5 & A6).
  assert (again = false) as -> by (apply A6; intros x X; rewrite F3; eauto). specialize (A5 eq_refl).
  assert (E2 : set_cell s2 i (h :: table s i) = with_table s2 (upd (table s0) i (h :: table s i))) by (unfold set_cell; now rewrite WT0). rewrite E2. set (s3 := with_table s2 (upd (table s0) i (h :: table s i))) in *.
  pose proof A1 as S3. destruct S3 as [n3 d3 t3 h3 p3 st3 ob3 r3].
  assert (LV : forall o' x, live s3 o' x <-> live s o' x). { intros o' x. unfold live. rewrite h3, F3, ob3. destruct (F6 x) as [-> _]. tauto. }
  assert (TB : forall j x, In x (table s3 j) <-> In x (table s j) \/ (j = i /\ x = h)) by (intros j x; rewrite t3; apply F7).
  assert (ST : forall x, stp s3 x = stp s x \/ In x (table s i) /\ stp s3 x = hstamp s). { intros x. destruct (A3 x) as [->|[Q ->]]; [destruct (F6 x) as [_ ->]; auto|rewrite F5; auto]. }
  assert (SS : forall x, stp s x = hstamp s -> stp s3 x = hstamp s). { intros x Q. rewrite <- F5. apply A4. destruct (F6 x) as [_ ->]. now rewrite F5. }
  split; [eapply Inv_same; eauto|]. split; [|split; [|split; [congruence|split; [congruence|split; [congruence|split; [congruence|split; [|split; [exact A2|split; [|split; [exact TB|split; [|exact SS]]]]]]]]]]].
  - intros x U. rewrite st3, F5. destruct (ST x) as [->|[_ ->]]; [|lia]. apply Fr. destruct U as [U|(j & U)]; [left; congruence|]. apply TB in U as [U|[_ ->]]; [right; eauto|left; apply Lv].
  - intros j x Q. rewrite h3, F3. apply TB in Q as [Q|[_ ->]]; [eauto|apply Lv].
  - intros x. rewrite ob3. apply F6.
  - intros j x o' Q Q' L N. rewrite st3, F5. apply LV in L. apply TB in Q. apply TB in Q'. destruct (Nat.eq_dec j i) as [->|Nj].
    + destruct Q' as [Q'|[_ ->]]; [|exfalso; destruct L, Lv; congruence]. rewrite <- F5. apply (A5 x o'); auto; [|congruence]. unfold live. rewrite F3. destruct (F6 x) as [-> _]. exact L.
    + destruct Q as [Q|[Q _]]; [|contradiction]. destruct Q' as [Q'|[Q' _]]; [|contradiction]. apply SS. eapply Mt; eauto.
  - intros x. destruct (ST x) as [->|[Q R]]; auto.
Qed.
Lemma rehash_cells : forall is (s : hash) h o out, Inv s -> fresh s -> clean s -> live s o h -> (forall i, In i is -> i < numcells s) -> reported s (Some o) out -> met s h o ->
  let '(s', out') := fold_left (rehash_cell h o) is (s, out) in
  Inv s' /\ fresh s' /\ clean s' /\ numcells s' = numcells s /\ celldim s' = celldim s /\ hstamp s' = hstamp s /\ handles s' = handles s /\ (forall x, obj s' x = obj s x) /\ reported s' (Some o) out' /\ met s' h o /\
  (forall j x, In x (table s' j) <-> In x (table s j) \/ (In j is /\ x = h)) /\
  (forall x, stp s' x = stp s x \/ (exists j, In j is /\ In x (table s j)) /\ stp s' x = hstamp s \/ x = h).
Proof.
  induction is as [|i is IH]; intros s h o out I Fr Cl Lv Li Rp Mt; cbn [fold_left].
  { do 3 (split; [assumption|]). do 4 (split; [reflexivity|]). split; [auto|]. do 2 (split; [assumption|]). split; [intros; cbn [In]; tauto|auto]. }
  pose proof (rehash_cell_ok s h o i out I Fr Cl Lv ltac:(apply Li; now left) Rp Mt) as C. destruct (rehash_cell h o (s, out) i) as [s1 o1]. destruct C as (A1 & A2 & A3 & A4 & A5 & A6 & A7 & A8 & A9 & A10 & A11 & A12 & A13).
  specialize (IH s1 h o o1 A1 A2 A3 ltac:(unfold live; rewrite A7, A8; exact Lv) ltac:(intros j J; rewrite A4; apply Li; now right) A9 A10). destruct (fold_left (rehash_cell h o) is (s1, o1)) as [s2 o2].
  destruct IH as (B1 & B2 & B3 & B4 & B5 & B6 & B7 & B8 & B9 & B10 & B11 & B12). do 3 (split; [assumption|]). do 4 (split; [congruence|]). split; [intros x; rewrite B8; apply A8|]. split; [exact B9|]. split; [exact B10|]. split.
  - intros j x. rewrite B11, A11. cbn [In]. intuition (subst; auto).
  - intros x. destruct (B12 x) as [E|[[(j & J & Q) E]|E]]; [|right|auto].
    + rewrite E. destruct (A12 x) as [E'|[[Q _] E']]; [auto|right; left]. split; [exists i; split; [now left|exact Q]|exact E'].
    + apply A11 in Q as [Q|[_ ->]]; [left; split; [exists j; split; [now right|exact Q]|congruence]|auto].
Qed.
Lemma rehash_ok (box : nat -> BB T) (s : hash) calls o h : Inv s -> Old s -> clean s -> 0 < numcells s -> live s o h -> (forall i, ~ In h (table s i)) ->
  let '(s', calls') := rehash_handle box (s, calls) o in exists out, calls' = calls ++ map (pair o) out /\ NoDup out /\
  (forall o', In o' out <-> o' <> o /\ exists i, In i (slots s (box o)) /\ cov s o' i) /\
  Inv s' /\ Old s' /\ clean s' /\ numcells s' = numcells s /\ celldim s' = celldim s /\ handles s' = handles s /\ (forall x, obj s' x = obj s x) /\
  (forall j x, In x (table s' j) <-> In x (table s j) \/ (In j (slots s (box o)) /\ x = h)).
Proof.
  intros I O Cl P Lv Nt. unfold rehash_handle. rewrite (find_live s o h I Lv).
  assert (R0 : reported s (Some o) []). { split; [constructor|]. split; [|intros x []]. intros x. split; [intros []|]. intros (y & [L _] & E). exfalso. assert (stp s y < hstamp s) by (apply O; now left). lia. }
  assert (F0 : fresh s) by (intros x U; apply Nat.lt_le_incl; now apply O). assert (M0 : met s h o) by (intros i x y Q; exfalso; exact (Nt i Q)).
  pose proof (rehash_cells (slots s (box o)) s h o [] I F0 Cl Lv (slots_lt s (box o) P) R0 M0) as C. destruct (fold_left (rehash_cell h o) (slots s (box o)) (s, [])) as [s1 out].
  destruct C as (A1 & A2 & A3 & A4 & A5 & A6 & A7 & A8 & A9 & A10 & A11 & A12). exists out. split; [reflexivity|]. destruct A9 as (N & M & Q). split; [exact N|].
  assert (LV : forall o' x, live s1 o' x <-> live s o' x) by (intros o' x; unfold live; rewrite A7, A8; tauto). split.
  - intros o'. rewrite M. split.
    + intros (x & L & E). assert (No : o' <> o) by (intros ->; apply (Q o); [apply M; exists x; auto|reflexivity]). split; [exact No|]. apply LV in L. rewrite A6 in E. destruct (A12 x) as [Z|[[(j & J & K) _]| ->]].
      * exfalso. assert (stp s x < hstamp s) by (apply O; left; apply L). lia.
      * exists j. split; [exact J|]. exists x. auto.
      * exfalso. destruct L, Lv. congruence.
    + intros (No & i & J & x & L & K). exists x. split; [now apply LV|]. apply (A10 i x o'); auto; [apply A11; right; auto|apply A11; auto|now apply LV].
  - split; [destruct A1; constructor; auto; cbn; lia|]. split; [intros x U; apply Nat.lt_succ_r; exact (A2 x U)|]. split; [exact A3|]. repeat (split; [assumption|]). exact A11.
Qed.
(** ** all pairs *)
Lemma times_app (a b : nat) l l' : times a b (l ++ l') = times a b l + times a b l'.
Proof. unfold times. now rewrite filter_app, app_length. Qed.
Lemma times_sym (a b : nat) l : times a b l = times b a l.
Proof. unfold times. f_equal. apply filter_ext. intros [x y]. apply orb_comm. Qed.
Lemma times_first (a b : nat) out : a <> b -> times a b (map (pair a) out) = count_occ Nat.eq_dec out b.
Proof.
  intros D. unfold times. induction out as [|y l IH]; [reflexivity|]. cbn [map filter fst snd count_occ]. rewrite Nat.eqb_refl. apply Nat.eqb_neq in D. rewrite D. cbn [andb]. rewrite orb_false_r. destruct (Nat.eq_dec y b) as [->|N]; [rewrite Nat.eqb_refl; cbn [length]; now rewrite IH|]. apply Nat.eqb_neq in N. now rewrite N.
Qed.
Lemma times_none (o a b : nat) out : o <> a -> o <> b -> times a b (map (pair o) out) = 0.
Proof. intros A B. apply Nat.eqb_neq in A, B. unfold times. induction out as [|y l IH]; [reflexivity|]. cbn [map filter fst snd]. now rewrite A, B. Qed.
Lemma count_in (b : nat) out : NoDup out -> count_occ Nat.eq_dec out b <= 1 /\ (count_occ Nat.eq_dec out b = 1 <-> In b out).
Proof.
  intros N. pose proof (proj1 (NoDup_count_occ Nat.eq_dec out) N b) as L. split; [exact L|]. rewrite (count_occ_In Nat.eq_dec). lia.
Qed.
Lemma times_out (o a b : nat) out : NoDup out -> ~ In o out -> a <> b -> times a b (map (pair o) out) <= 1 /\ (times a b (map (pair o) out) = 1 <-> a = o /\ In b out \/ b = o /\ In a out).
Proof.
  intros N No D. destruct (Nat.eq_dec o a) as [->|A].
  - rewrite times_first by assumption. destruct (count_in b out N) as [L E]. split; [exact L|]. rewrite E. split; [auto|intros [[_ Q]|[Q _]]; [exact Q|congruence]].
  - destruct (Nat.eq_dec o b) as [->|B].
    + rewrite times_sym, times_first by congruence. destruct (count_in a out N) as [L E]. split; [exact L|]. rewrite E. split; [auto|intros [[Q _]|[_ Q]]; [congruence|exact Q]].
    + rewrite times_none by assumption. split; [lia|]. split; [lia|intros [[Q _]|[Q _]]; congruence].
Qed.
Definition meet (s : hash) (x y : BB T) : Prop := exists i, In i (slots s x) /\ In i (slots s y).
Lemma slots_eq (s s' : hash) x : numcells s' = numcells s -> celldim s' = celldim s -> slots s' x = slots s x.
Proof. intros A B. unfold slots. now rewrite A, B. Qed.
Lemma reindex_fold (box : nat -> BB T) : forall todo (s : hash) calls done, NoDup todo -> (forall o, In o todo -> memb s o /\ ~ In o done) -> Inv s -> Old s -> clean s -> 0 < numcells s ->
  (forall o i, cov s o i <-> In o done /\ In i (slots s (box o))) ->
  let '(s', calls') := fold_left (rehash_handle box) todo (s, calls) in exists new, calls' = calls ++ new /\
  Inv s' /\ Old s' /\ clean s' /\ numcells s' = numcells s /\ celldim s' = celldim s /\ (forall o, memb s' o <-> memb s o) /\
  (forall o i, cov s' o i <-> In o (todo ++ done) /\ In i (slots s (box o))) /\
  (forall a b, In (a, b) new -> In a todo /\ In b (todo ++ done) /\ a <> b) /\
  (forall a b, a <> b -> times a b new <= 1 /\ (times a b new = 1 <-> meet s (box a) (box b) /\ (In a todo /\ In b (todo ++ done) \/ In b todo /\ In a (todo ++ done)))).
Proof.
  induction todo as [|o todo IH]; intros s calls done ND Hm I O Cl P Cv; cbn [fold_left].
  { exists []. split; [now rewrite app_nil_r|]. do 3 (split; [assumption|]). do 3 (split; [reflexivity|]). split; [exact Cv|]. split; [intros a b []|]. intros a b D. cbn. split; [lia|]. split; [lia|intros (_ & [[[] _]|[[] _]])]. }
  inversion ND as [|? ? No ND']; subst. destruct (Hm o ltac:(now left)) as [(h & Lv) Nd].
  assert (Nt : forall i, ~ In h (table s i)). { intros i Q. apply Nd. apply (Cv o i). exists h. auto. }
  pose proof (rehash_ok box s calls o h I O Cl P Lv Nt) as C. destruct (rehash_handle box (s, calls) o) as [s1 c1]. destruct C as (out & E1 & N1 & M1 & A1 & A2 & A3 & A4 & A5 & A6 & A7 & A8).
  assert (LV : forall o' x, live s1 o' x <-> live s o' x) by (intros o' x; unfold live; rewrite A6, A7; tauto).
  assert (MB : forall o', memb s1 o' <-> memb s o') by (intros o'; unfold memb; split; intros (x & L); exists x; now apply LV).
  assert (C1 : forall o' i, cov s1 o' i <-> In o' (o :: done) /\ In i (slots s1 (box o'))).
  { intros o' i. rewrite (slots_eq s s1) by assumption. cbn [In]. split.
    - intros (x & L & Q). apply LV in L. apply A8 in Q as [Q|[Q ->]]; [assert (cov s o' i) as Z by (exists x; auto); apply Cv in Z as [Z1 Z2]; auto|]. assert (o' = o) as -> by (destruct L, Lv; congruence). auto.
    - intros [[<-|Q] R]; [exists h; split; [now apply LV|apply A8; auto]|]. destruct (proj2 (Cv o' i) (conj Q R)) as (x & L & K). exists x. split; [now apply LV|apply A8; auto]. }
  specialize (IH s1 c1 (o :: done) ND' ltac:(intros y Y; split; [apply MB; apply Hm; now right|intros [<-|Z]; [contradiction|]; destruct (Hm y ltac:(now right)); contradiction]) A1 A2 A3 ltac:(now rewrite A4) C1).
  destruct (fold_left (rehash_handle box) todo (s1, c1)) as [s2 c2]. destruct IH as (new & E2 & B1 & B2 & B3 & B4 & B5 & B6 & B7 & B8 & B9).
  assert (M2 : forall b, In b out <-> b <> o /\ In b done /\ meet s (box o) (box b)).
  { intros b. rewrite M1. split; intros (X & Y).
    - destruct Y as (i & J & K). apply Cv in K as [K1 K2]. split; [exact X|]. split; [exact K1|]. exists i. auto.
    - destruct Y as (Y & i & J & K). split; [exact X|]. exists i. split; [exact J|]. apply Cv. auto. }
  assert (MT : forall x y, meet s1 x y <-> meet s x y) by (intros x y; unfold meet; rewrite !(slots_eq s s1) by assumption; tauto).
  assert (MS : forall x y, meet s x y <-> meet s y x) by (intros x y; split; intros (i & J & K); exists i; auto).
  exists (map (pair o) out ++ new). split; [subst; now rewrite app_assoc|]. do 3 (split; [assumption|]). do 2 (split; [congruence|]). split; [intros o'; rewrite B6; apply MB|]. split; [|split].
  - intros o' i. rewrite B7, (slots_eq s s1) by assumption. cbn [In app]. rewrite !in_app_iff. cbn [In]. tauto.
  - intros a b. rewrite in_app_iff, in_map_iff. cbn [In app]. rewrite !in_app_iff. intros [(y & [= <- <-] & Y)|Y]; [apply M2 in Y as (Y1 & Y2 & _); repeat split; auto|]. apply B8 in Y as (Y1 & Y2 & Y3). rewrite in_app_iff in Y2. cbn [In] in Y2. repeat split; auto. tauto.
  - intros a b D. rewrite times_app. destruct (times_out o a b out N1 ltac:(rewrite M2; tauto) D) as [L1 X1]. destruct (B9 a b D) as [L2 X2]. rewrite !M2 in X1. rewrite MT in X2. rewrite !in_app_iff in X2. cbn [In app] in X2 |- *. rewrite !in_app_iff.
    assert (EX : times a b (map (pair o) out) = 1 -> times a b new = 1 -> False).
    { intros Z1 Z2. apply X1 in Z1. apply X2 in Z2. destruct Z2 as [_ Z2]. pose proof (fun y (Y : In y todo) => proj2 (Hm y (or_intror Y))) as Dj. destruct Z1 as [(-> & _ & Z & _)|(-> & _ & Z & _)], Z2 as [[Y _]|[Y _]]; first [contradiction|exact (Dj _ Y Z)]. }
    split; [lia|]. split.
    + intros Q. assert (times a b (map (pair o) out) = 1 \/ times a b new = 1) as [Z|Z] by lia; [apply X1 in Z as [(-> & _ & Z & K)|(-> & _ & Z & K)]; split; [exact K|tauto|now apply MS|tauto]|apply X2 in Z; intuition].
    + intros (K & W). destruct (Nat.eq_dec (times a b new) 1) as [Z|Z]; [lia|]. assert (times a b (map (pair o) out) = 1); [|lia]. assert (NW : ~ (In a todo /\ (In b todo \/ o = b \/ In b done) \/ In b todo /\ (In a todo \/ o = a \/ In a done))) by (intros NW; apply Z; apply X2; auto). apply X1. destruct W as [[[<-|W] W']|[[<-|W] W']].
      * left. repeat split; auto. destruct W' as [W'|[W'|W']]; [congruence| |exact W']. exfalso. apply NW. auto.
      * exfalso. apply NW. left. intuition.
      * right. repeat split; auto; [|now apply MS]. destruct W' as [W'|[W'|W']]; [congruence| |exact W']. exfalso. apply NW. auto.
      * exfalso. apply NW. right. intuition.
Qed.
Lemma reindex_query_ok (box : nat -> BB T) order (s : hash) : Inv s -> Old s -> 0 < numcells s -> NoDup order -> (forall o, In o order <-> memb s o) ->
  let '(s', calls) := sh_reindex_query box order s in Inv s' /\ Old s' /\ numcells s' = numcells s /\ celldim s' = celldim s /\ (forall o, memb s' o <-> memb s o) /\
  (forall o i, cov s' o i <-> memb s o /\ In i (slots s (box o))) /\
  (forall a b, In (a, b) calls -> memb s a /\ memb s b /\ a <> b) /\
  (forall a b, a <> b -> times a b calls <= 1 /\ (times a b calls = 1 <-> memb s a /\ memb s b /\ meet s (box a) (box b))).
Proof.
  intros I O P ND Hm. destruct (clear_ok s I) as (A & B1 & B2 & B3 & B4 & B5 & B6). pose proof (clear_old s I O) as O'. unfold sh_reindex_query. set (s0 := clear_table s) in *.
  assert (LV : forall o x, live s0 o x <-> live s o x) by (intros o x; unfold live; rewrite B3; destruct (B5 x) as [-> _]; tauto).
  assert (MB : forall o, memb s0 o <-> memb s o) by (intros o'; unfold memb; split; intros (x & L); exists x; now apply LV).
  pose proof (reindex_fold box order s0 [] [] ND ltac:(intros o Q; split; [now apply MB, Hm|intros []]) A O' ltac:(intros i h; rewrite B6; intros []) ltac:(now rewrite B1) ltac:(intros o i; split; [intros (h & _ & Q); rewrite B6 in Q; destruct Q|intros [[] _]])) as C.
  destruct (fold_left (rehash_handle box) order (s0, [])) as [s' calls]. destruct C as (new & -> & C1 & C2 & C3 & C4 & C5 & C6 & C7 & C8 & C9). cbn [app]. rewrite app_nil_r in *.
  assert (MT : forall x y, meet s0 x y <-> meet s x y) by (intros x y; unfold meet; rewrite !(slots_eq s s0) by assumption; tauto).
  do 2 (split; [assumption|]). do 2 (split; [congruence|]). split; [intros o; rewrite C6; apply MB|]. split; [|split].
  - intros o i. rewrite C7, Hm, (slots_eq s s0) by assumption. tauto.
  - intros a b Q. apply C8 in Q as (Q1 & Q2 & Q3). rewrite Hm in Q1, Q2. auto.
  - intros a b D. destruct (C9 a b D) as [L E]. split; [exact L|]. rewrite E, MT, !Hm. tauto.
Qed.
(** ** segment queries *)
Lemma seg_walk_ok {S} (f : S -> nat -> S * T) : forall l (s : hash) st t, Inv s ->
  let '(s', _, _, again) := seg_walk f s l st t in same s s' /\ (forall h, stp s' h = stp s h \/ stp s' h = hstamp s).
Proof.
  induction l as [|h l IH]; intros s st t I; cbn [seg_walk]; [split; [apply same_refl|auto]|]. destruct (stp s h =? hstamp s); [now apply IH|]. destruct (obj s h) as [o|]; [|split; [apply same_refl|auto]].
  destruct (f st o) as [st' r]. pose proof (same_stamp s h (hstamp s)) as S1. specialize (IH (set_stamp s h (hstamp s)) st' (nmin t r) (Inv_same _ _ S1 I)). destruct (seg_walk f (set_stamp s h (hstamp s)) l st' (nmin t r)) as [[[s' ?] ?] ?]. destruct IH as [A B]. split; [eapply same_trans; eauto|]. intros x. destruct (B x) as [->|Q]; [|right; exact Q]. cbn. unfold upd. destruct (x =? h); auto.
Qed.
Lemma seg_with_table {S} (f : S -> nat -> S * T) : forall l (x : hash) tb st t, seg_walk f (with_table x tb) l st t = let '(y, a, b, c) := seg_walk f x l st t in (with_table y tb, a, b, c).
Proof. induction l as [|h l IH]; intros x tb st t; cbn [seg_walk]; [reflexivity|]. cbn [heap hstamp with_table]. destruct (_ =? _); [apply IH|]. destruct (h_obj (heap x h)) as [o|]; [|reflexivity]. destruct (f st o) as [st' r]. rewrite <- IH. reflexivity. Qed.
Lemma seg_table {S} (f : S -> nat -> S * T) : forall l (x : hash) st t, table (fst (fst (fst (seg_walk f x l st t)))) = table x.
Proof. induction l as [|h l IH]; intros x st t; cbn [seg_walk]; [reflexivity|]. destruct (_ =? _); [apply IH|]. destruct (h_obj (heap x h)) as [o|]; [|reflexivity]. destruct (f st o) as [st' r]. rewrite IH. reflexivity. Qed.
Lemma seg_helper_ok {S} (f : S -> nat -> S * T) (s : hash) i st : Inv s -> fresh s -> i < numcells s -> let '(s', _, _) := seg_helper f s i st in Inv s' /\ fresh s' /\ keeps s s'.
Proof.
  intros I Fr L. unfold seg_helper. pose proof (seg_walk_ok f (table s i) s st none_ I) as W. destruct (seg_walk f s (table s i) st none_) as [[[s1 st1] t1] again]. destruct W as [A B].
  assert (F1 : fresh s1). { intros h U. apply (same_use s s1 h A) in U. rewrite (sm_s s s1 A). destruct (B h) as [->| ->]; auto. } pose proof (Inv_same s s1 A I) as I1.
  destruct again; [|destruct (set_back s1 i (table s i) ltac:(now rewrite (sm_t s s1 A)) I1 F1) as (X & Y & Z); split; [exact X|]; split; [exact Y|]; eapply keeps_trans; [apply same_keeps, A|exact Z]].
  rewrite <- (sm_t s s1 A). pose proof (purge_ok s1 i I1 ltac:(now rewrite (sm_n s s1 A))) as P. cbv zeta in P. unfold purge in P. destruct (remove_orphaned s1 (table s1 i)) as [s2 l]. destruct P as (J & K & B1 & B2 & B3 & B4 & B5).
  assert (Ew : seg_walk f (set_cell s2 i l) l st1 t1 = let '(y, a, b, c) := seg_walk f s2 l st1 t1 in (with_table y (upd (table s2) i l), a, b, c)) by apply seg_with_table.
  pose proof (seg_walk_ok f l (set_cell s2 i l) st1 t1 J) as W. rewrite Ew in W. pose proof (seg_table f l s2 st1 t1) as WT. destruct (seg_walk f s2 l st1 t1) as [[[s3 st3] t3] ag]. cbn [fst] in WT. destruct W as [C D].
  assert (E3 : set_cell s3 i l = with_table s3 (upd (table s2) i l)) by (unfold set_cell; now rewrite WT). rewrite E3. set (s5 := with_table s3 (upd (table s2) i l)) in *.
  split; [eapply Inv_same; eauto|]. split; [|eapply keeps_trans; [apply same_keeps, A|]; eapply keeps_trans; [exact K|now apply same_keeps]].
  intros h U. apply (same_use _ s5 h C) in U. rewrite (sm_s _ s5 C). destruct (D h) as [->| ->]; [|auto]. rewrite B2. destruct (B3 h) as [_ ->]. apply F1. destruct U as [U|(j & U)]; [left; congruence|right; eauto].
Qed.
Lemma grid_walk_ok {S} (f : S -> nat -> S * T) : forall fuel cx cy xi yi dtx dty nh nv (s : hash) st t te, Inv s -> fresh s -> 0 < numcells s ->
  match grid_walk f fuel cx cy xi yi dtx dty nh nv s st t te with Some (s', _) => Inv s' /\ Old s' /\ keeps s s' | None => True end.
Proof.
  induction fuel as [|k IH]; intros cx cy xi yi dtx dty nh nv s st t te I Fr P; cbn [grid_walk]; [exact Logic.I|]. destruct (nltb t te).
  - pose proof (seg_helper_ok f s (slot (numcells s) (cx, cy)) st I Fr (slot_lt _ _ P)) as H. destruct (seg_helper f s (slot (numcells s) (cx, cy)) st) as [[s1 st1] r]. destruct H as (A & B & C).
    assert (P1 : 0 < numcells s1) by (rewrite (k_n s s1 C); exact P). destruct (nltb nv nh); [specialize (IH cx (cy + yi)%Z xi yi dtx dty nh (nadd nv dty) s1 st1 nv (nmin te r) A B P1)|specialize (IH (cx + xi)%Z cy xi yi dtx dty (nadd nh dtx) nv s1 st1 nh (nmin te r) A B P1)];
    (destruct (grid_walk f k _ _ _ _ _ _ _ _ _ _ _ _) as [[s2 st2]|]; [|exact Logic.I]; destruct IH as (X & Y & Z); do 2 (split; [assumption|]); eapply keeps_trans; eauto).
  - split; [destruct I; constructor; auto; cbn; lia|]. split; [intros h U; apply Nat.lt_succ_r; exact (Fr h U)|]. constructor; try reflexivity.
Qed.
(** ** histories *)
Record Rel (n : nat) (dim : T) (ms : list nat) (ix : nat -> BB T) (s : hash) : Prop := {
  r_inv : Inv s; r_old : Old s; r_n : numcells s = n; r_d : celldim s = dim; r_nd : NoDup ms;
  r_m : forall o, memb s o <-> In o ms; r_c : forall o i, cov s o i <-> In o ms /\ In i (map (slot n) (cells dim (ix o))) }.
Lemma rel_new n dim box0 : 0 < n -> Rel n dim [] box0 (new_hash dim n).
Proof.
  intros P. assert (U : forall h, ~ in_use (new_hash dim n) h) by (intros h [[]|(i & [])]). constructor; try reflexivity.
  - constructor; cbn; try constructor; try (intros; contradiction); auto. intros h Q. exfalso. exact (U h Q).
  - intros h Q. exfalso. exact (U h Q).
  - constructor.
  - intros o. split; [intros (h & [] & _)|intros []].
  - intros o i. split; [intros (h & [[] _] & _)|intros [[] _]].
Qed.
Variables (dim : T) (n : nat) (box0 : nat -> BB T).
Hypothesis n_pos : 0 < n.
Lemma history_ok : forall h, hvalid dim n box0 h -> Rel n dim (hmembers h) (fun o => hindexed box0 o h) (hrun dim n box0 h).
Proof.
  induction h as [|o h IH]; cbn [hvalid hrun]; [intros _; now apply rel_new|]. intros [A V]. specialize (IH V). destruct IH as [Iv Od En Ed Nd Mm Cc]. assert (P : 0 < numcells (hrun dim n box0 h)) by now rewrite En.
  assert (SL : forall x, slots (hrun dim n box0 h) x = map (slot n) (cells dim x)) by (intros x; unfold slots; now rewrite En, Ed).
  destruct o as [b|o g|o|o g|order|q x|f fuel a b te]; cbn [hallowed happly hmembers] in *.
  - constructor; auto.
  - destruct A as [A1 A2]. destruct (insert_ok (hrun dim n box0 h) o g (box_now box0 h o) Iv Od P ltac:(now rewrite Mm) A2) as (B1 & B2 & B3 & B4 & B5 & B6). constructor; auto; try congruence.
    + constructor; auto.
    + intros y. rewrite B5, Mm. cbn [In]. intuition.
    + intros y i. rewrite B6, Cc, SL. cbn [hindexed In]. destruct (Nat.eqb_spec y o) as [->|N]; intuition congruence.
  - destruct (remove_ok (hrun dim n box0 h) o Iv Od ltac:(now rewrite Mm)) as (B1 & B2 & B3 & B4 & B5 & B6). assert (RM : forall y, In y (remove Nat.eq_dec o (hmembers h)) <-> In y (hmembers h) /\ y <> o) by (intros y; split; [apply in_remove|intros []; now apply in_in_remove]). constructor; auto; try congruence.
    + clear -Nd. induction Nd as [|y l N _ IH]; cbn; [constructor|]. destruct (Nat.eq_dec o y); auto. constructor; auto. intros Q. apply in_remove in Q as [Q _]. contradiction.
    + intros y. rewrite B5, Mm, RM. tauto.
    + intros y i. rewrite B6, Cc, RM. cbn [hindexed]. tauto.
  - destruct A as [A1 A2]. unfold sh_reindex_object. destruct (find_handle (hrun dim n box0 h) o) as [hd|] eqn:E; [|exfalso; apply (find_none _ _ E); now apply Mm].
    destruct (remove_ok (hrun dim n box0 h) o Iv Od ltac:(now rewrite Mm)) as (B1 & B2 & B3 & B4 & B5 & B6).
    destruct (insert_ok (sh_remove (hrun dim n box0 h) o) o g (box_now box0 h o) B1 B2 ltac:(now rewrite B3) ltac:(rewrite B5; tauto) A2) as (C1 & C2 & C3 & C4 & C5 & C6). constructor; auto; try congruence.
    + intros y. rewrite C5, B5, Mm. destruct (Nat.eq_dec y o) as [->|]; intuition.
    + intros y i. rewrite C6, B6, Cc. rewrite (slots_eq (hrun dim n box0 h)) by assumption. rewrite SL. cbn [hindexed]. destruct (Nat.eqb_spec y o) as [->|N]; intuition congruence.
  - pose proof (reindex_query_ok (box_now box0 h) order (hrun dim n box0 h) Iv Od P ltac:(eapply Permutation_NoDup; [symmetry; exact A|exact Nd]) ltac:(intros y; rewrite Mm; split; apply Permutation_in; [exact A|now symmetry])) as C. destruct (sh_reindex_query (box_now box0 h) order (hrun dim n box0 h)) as [s' calls]. cbn [fst]. destruct C as (B1 & B2 & B3 & B4 & B5 & B6 & _ & _). constructor; auto; try congruence.
    + intros y. rewrite B5. apply Mm.
    + intros y i. rewrite B6, Mm, SL. cbn [hindexed]. tauto.
  - pose proof (query_ok (hrun dim n box0 h) q x Iv Od P) as C. destruct (sh_query (hrun dim n box0 h) q x) as [s' out]. cbn [fst]. destruct C as (B1 & B2 & [k1 k2 k3 k4] & _). constructor; auto; try congruence; intros; [rewrite k3; apply Mm|rewrite k4; apply Cc].
  - unfold sh_segment_query in *. destruct (axis _ _) as [[xi dtx] nh]. destruct (axis _ _) as [[yi dty] nv].
    match goal with |- context [grid_walk f fuel ?a1 ?a2 ?a3 ?a4 ?a5 ?a6 ?a7 ?a8 ?a9 ?b1 ?b2 ?b3] => pose proof (grid_walk_ok f fuel a1 a2 a3 a4 a5 a6 a7 a8 a9 b1 b2 b3 Iv ltac:(intros z U; apply Nat.lt_le_incl; now apply Od) P) as C; destruct (grid_walk f fuel a1 a2 a3 a4 a5 a6 a7 a8 a9 b1 b2 b3) as [[s' out]|] end; [|constructor; auto].
    destruct C as (B1 & B2 & [k1 k2 k3 k4]). constructor; auto; try congruence; intros; [rewrite k3; apply Mm|rewrite k4; apply Cc].
Qed.
End P.
Section Static.
Context {T : Type} {NT : Num T}.
Notation hash := (hash T).
Lemma static_fold (box : nat -> BB T) : forall objs (s : hash) calls, NoDup objs -> Inv s -> Old s -> 0 < numcells s ->
  let '(s', calls') := fold_left (fun a o => let '(s, calls) := a in let '(s, out) := sh_query s (Some o) (box o) in (s, calls ++ map (pair o) out)) objs (s, calls) in
  exists new, calls' = calls ++ new /\ Inv s' /\ Old s' /\ keeps s s' /\ NoDup new /\
  (forall a b, In (a, b) new <-> In a objs /\ a <> b /\ memb s b /\ exists i, In i (slots s (box a)) /\ cov s b i).
Proof.
  induction objs as [|o objs IH]; intros s calls ND I O P; cbn [fold_left].
  { exists []. rewrite app_nil_r. split; [reflexivity|]. do 2 (split; [assumption|]). split; [apply keeps_refl|]. split; [constructor|]. intros a b. split; [intros []|intros ([] & _)]. }
  inversion ND as [|? ? No ND']; subst. pose proof (query_ok s (Some o) (box o) I O P) as Q. destruct (sh_query s (Some o) (box o)) as [s1 out]. destruct Q as (A1 & A2 & A3 & A4 & A5). pose proof A3 as K. destruct K as [k1 k2 k3 k4].
  specialize (IH s1 (calls ++ map (pair o) out) ND' A1 A2 ltac:(now rewrite k1)). destruct (fold_left _ objs (s1, calls ++ map (pair o) out)) as [s2 c2]. destruct IH as (new & -> & B1 & B2 & B3 & B4 & B5).
  assert (B5' : forall a b, In (a, b) new <-> In a objs /\ a <> b /\ memb s b /\ exists i, In i (slots s (box a)) /\ cov s b i).
  { intros a b. rewrite B5, k3, (slots_eq s s1) by assumption. split; intros (X & Y & Z & i & J & L); (split; [exact X|]); (split; [exact Y|]); (split; [exact Z|]); exists i; (split; [exact J|]); now apply k4. }
  exists (map (pair o) out ++ new). split; [now rewrite app_assoc|]. do 2 (split; [assumption|]). split; [eapply keeps_trans; eauto|]. split.
  - assert (N1 : NoDup (map (pair o) out)) by (apply FinFun.Injective_map_NoDup; [intros x y [=]; assumption|exact A4]). clear -N1 B4 B5' No. induction (map (pair o) out) as [|y l IH] eqn:E in out, N1 |- *.
    + exact B4.
    + destruct out as [|z out]; [discriminate|]. cbn in E. injection E as <- <-. inversion N1; subst. cbn [app]. constructor; [rewrite in_app_iff; intros [Q|Q]; [contradiction|apply B5' in Q as (Q & _); contradiction]|]. apply (IH out); auto.
  - intros a b. rewrite in_app_iff, in_map_iff, B5'. cbn [In]. split.
    + intros [(y & [= <- <-] & Y)|(X & Y)]; [apply A5 in Y as (Y1 & Y2 & Y3); repeat split; auto; congruence|tauto].
    + intros ([<-|X] & Y & Z & W); [left; exists b; split; [reflexivity|]; apply A5; repeat split; auto; congruence|right; tauto].
Qed.
End Static.
