(** The contact buffers refine one note per pair *)
From Coq Require Import ZArith Arith Bool List Lia.
From Verif Require Import Num SpecContacts.
From Verif.Model Require Import Vector Solver Contacts.
From Verif.Proofs Require Import ContactsPf.
Import ListNotations.
Local Open Scope nat_scope.

Section Pf.
Context {T : Type} `{Num T}.
Notation Con := (Contact T).
Implicit Types s : CSpace T.

Lemma F2_len {A B} (P : A -> B -> Prop) l l' : Forall2 P l l' -> length l = length l'.
Proof. induction 1; cbn; congruence. Qed.

(** an event that hands out an array and gives it to the arbiter [a] (or takes it back) *)
Lemma settle s s1 s2 h n cnt a x' :
  handed s s1 h n -> 0 < k_stamp s ->
  k_stamp s2 = k_stamp s1 -> k_nbufs s2 = k_nbufs s1 -> k_head s2 = k_head s1 ->
  (forall c, u_stamp (k_bufs s2 c) = u_stamp (k_bufs s1 c) /\ u_next (k_bufs s2 c) = u_next (k_bufs s1 c) /\
             u_num (k_bufs s2 c) = if c =? h then n + cnt else u_num (k_bufs s1 c)) ->
  (forall c j, c <> h \/ j < n -> slot s2 c j = slot s1 c j) ->
  k_arbs s2 = upd (k_arbs s1) a (Some x') -> cnt <= max_contacts ->
  x_stamp x' = k_stamp s1 -> x_cached x' = true ->
  (x_mem x' = MRing h n /\ x_count x' = cnt) \/ (x_mem x' = MNil /\ x_count x' = 0) ->
  inv s2 /\ (forall b y, b <> a -> k_arbs s b = Some y -> mem_read s2 (x_mem y) (x_count y) = mem_read s (x_mem y) (x_count y)).
Proof.
  intros Hd Pos St Nb Hd2 Bu Sl Ar Cm Xs Xc Xm.
  pose proof (handed_free s s1 h n Hd) as Free. destruct Hd as (J & Hh & Lh & Sh & Nh & Room & Ks & Ka & Rd).
  assert (RefO : forall b c o m y, ref s2 b c o m y -> b <> a -> ref s1 b c o m y).
  { intros b c o m y (E & M & Cn & P) N. rewrite Ar, upd_ne in E by exact N. now repeat split. }
  assert (RefA : forall c o m y, ref s2 a c o m y -> y = x' /\ c = h /\ o = n /\ m = cnt).
  { intros c o m y (E & M & Cn & P). rewrite Ar, upd_eq in E. injection E as <-.
    destruct Xm as [(M' & C')|(M' & C')]; rewrite M' in M; [injection M as <- <-|discriminate]. repeat split; lia. }
  split; [split; [|split]|].
  - constructor.
    + intros h' E. rewrite Nb. apply (i_head s1 J). now rewrite <- Hd2.
    + intros b L. rewrite Nb in L. destruct (Bu b) as (-> & -> & ->). rewrite St, Nb.
      destruct (i_buf s1 J b L) as (A & B & D). repeat split; [exact A| |exact D]. destruct (b =? h); [lia|exact B].
    + intros b c o m y R. destruct (Nat.eq_dec b a) as [->|N].
      * destruct (RefA _ _ _ _ R) as (-> & -> & -> & ->). destruct (Bu h) as (-> & _ & ->). rewrite St, Nb, Nat.eqb_refl.
        split; [exact Lh|]. split; [now rewrite Xs, Sh|]. split; [lia|]. split; [lia|exact Xc].
      * specialize (RefO _ _ _ _ _ R N). destruct (i_ref s1 J _ _ _ _ _ RefO) as (A & B & D & E & F).
        destruct (Bu c) as (-> & _ & ->). rewrite St, Nb. repeat split; try assumption. destruct (c =? h) eqn:Q; [|exact D].
        apply Nat.eqb_eq in Q. subst c. lia.
    + intros b c o m y b' o' m' y' R R' N. destruct (Nat.eq_dec b a) as [->|Nb1].
      * destruct (RefA _ _ _ _ R) as (-> & -> & -> & ->). right. apply (Free b' o' m' y'). apply RefO; [exact R'|congruence].
      * destruct (Nat.eq_dec b' a) as [->|Nb2].
        -- destruct (RefA _ _ _ _ R') as (-> & -> & -> & ->). left. apply (Free b o m y). now apply RefO.
        -- exact (i_dis s1 J _ _ _ _ _ _ _ _ _ (RefO _ _ _ _ _ R Nb1) (RefO _ _ _ _ _ R' Nb2) N).
    + intros b y E. rewrite Ar in E. destruct (Nat.eq_dec b a) as [->|N].
      * rewrite upd_eq in E. injection E as <-. destruct Xm as [(M & C)|(M & C)]; rewrite M, C.
        -- split; [exact Cm|]. split; intros; discriminate.
        -- split; [unfold max_contacts; lia|]. split; [reflexivity|discriminate].
      * rewrite upd_ne in E by exact N. exact (i_arb s1 J b y E).
  - intros h' E. rewrite Hd2, Hh in E. injection E as <-. destruct (Bu h) as (-> & _ & _). now rewrite St.
  - intros _. rewrite Hd2, Hh. discriminate.
  - intros b y N E. rewrite <- (Rd b y E). apply read_ext. intros c o i M Hi. apply Sl.
    destruct (Nat.eq_dec c h) as [->|Nc]; [right|now left].
    assert (L : o + x_count y <= n); [|lia]. apply (Free b o (x_count y) y). repeat split; [now rewrite Ka|exact M|lia].
Qed.

Lemma set_num_bufs s h f c : k_head s = Some h -> u_stamp (k_bufs (set_num s f) c) = u_stamp (k_bufs s c) /\
  u_next (k_bufs (set_num s f) c) = u_next (k_bufs s c) /\ (forall j, slot (set_num s f) c j = slot s c j) /\
  u_num (k_bufs (set_num s f) c) = if c =? h then f (u_num (k_bufs s h)) else u_num (k_bufs s c).
Proof.
  intros E. unfold set_num, slot. rewrite E. cbn. unfold upd. destruct (c =? h) eqn:Q; [apply Nat.eqb_eq in Q; subst|]; cbn; auto.
Qed.
Lemma set_num_rest s f : k_stamp (set_num s f) = k_stamp s /\ k_nbufs (set_num s f) = k_nbufs s /\ k_head (set_num s f) = k_head s /\ k_arbs (set_num s f) = k_arbs s.
Proof. unfold set_num. destruct (k_head s) eqn:E; cbn; auto. Qed.

(** ** the refinement *)
Definition agrees s (x : option (CArb T)) (n : option (note T)) : Prop :=
  match x, n with
  | Some x, Some n => x_stamp x = nt_stamp n /\ x_cached x = negb (nt_stored n) /\ Forall2 same_contact (mem_read s (x_mem x) (x_count x)) (nt_contacts n)
  | None, None => True
  | _, _ => False
  end.
Definition refines s (k : book T) : Prop := k_stamp s = bk_now k /\ forall a, agrees s (k_arbs s a) (bk_note k a).

Lemma same_inherit l l' (h : Z) : Forall2 same_contact l l' -> forall acc,
  fold_left (fun acc (o : Con) => if (h =? c_hash o)%Z then (c_jnAcc o, c_jtAcc o) else acc) l acc =
  fold_left (fun acc (o : Con) => if (h =? c_hash o)%Z then (c_jnAcc o, c_jtAcc o) else acc) l' acc.
Proof.
  induction 1 as [|c d l l' (A & B & D & E & F) _ IH]; intros acc; [reflexivity|]. cbn [fold_left]. rewrite IH, F, D, E. reflexivity.
Qed.
Lemma update_same pa pb old old' (c : Con) (r : Raw T) :
  Forall2 same_contact old old' -> c_r1 c = fst (fst r) -> c_r2 c = snd (fst r) -> c_hash c = snd r ->
  same_contact (con_update pa pb old c) (warm pa pb old' r).
Proof.
  intros F A B E. destruct r as [[p1 p2] h]. cbn in A, B, E. unfold con_update, warm, inherit. rewrite E, A, B.
  rewrite (same_inherit old old' h F). destruct (fold_left _ old' _) as [jn jt]. now cbn.
Qed.
Lemma same_refl l : Forall2 (@same_contact T) l l.
Proof. induction l; constructor; [now repeat split|assumption]. Qed.

Lemma agrees_default s k a : refines s k ->
  let x := match k_arbs s a with Some x => x | None => mkCArb 0 0 MNil true end in
  Forall2 same_contact (mem_read s (x_mem x) (x_count x)) (contacts_of k a).
Proof.
  intros (_ & A). specialize (A a). unfold contacts_of, agrees in *. destruct (k_arbs s a), (bk_note k a); try contradiction; [|constructor].
  apply A.
Qed.

Lemma refines_upd s s2 k k2 a x' n' : refines s k -> k_stamp s2 = k_stamp s -> bk_now k2 = bk_now k ->
  (forall b, k_arbs s2 b = upd (k_arbs s) a x' b) -> (forall b, bk_note k2 b = if b =? a then n' else bk_note k b) ->
  (forall b y, b <> a -> k_arbs s b = Some y -> mem_read s2 (x_mem y) (x_count y) = mem_read s (x_mem y) (x_count y)) ->
  agrees s2 x' n' -> refines s2 k2.
Proof.
  intros (N & A) St Nw Ar Nt Rd Ax. split; [now rewrite St, Nw|]. intros b. rewrite Ar, Nt. unfold upd. destruct (b =? a) eqn:E; [exact Ax|].
  apply Nat.eqb_neq in E. specialize (A b). unfold agrees in *. destruct (k_arbs s b) as [y|] eqn:Y; [|exact A].
  destruct (bk_note k b); [|contradiction]. rewrite (Rd b y E Y). exact A.
Qed.

Lemma wrote_trans_read s s' b off l m n : wrote s s' b off l ->
  (forall o i, m = MRing b o -> i < n -> o + i < off) -> mem_read s' m n = mem_read s m n.
Proof.
  intros (_ & _ & _ & _ & _ & A6) F. apply read_ext. intros c o i M Hi. rewrite A6. destruct (c =? b) eqn:E; [|reflexivity].
  apply Nat.eqb_eq in E. subst c. specialize (F o i M Hi). rewrite (proj2 (Nat.leb_gt off (o + i))) by exact F. reflexivity.
Qed.
Lemma wrote_len s s' s'' b off l l' : wrote s s' b off l -> wrote s' s'' b off l' -> length l = length l' -> wrote s s'' b off l'.
Proof.
  intros (A1 & A2 & A3 & A4 & A5 & A6) (B1 & B2 & B3 & B4 & B5 & B6) L.
  split; [now rewrite B1|]. split; [now rewrite B2|]. split; [now rewrite B3|]. split; [now rewrite B4|]. split.
  - intros c. destruct (A5 c) as (<- & <- & <-). apply B5.
  - intros c j. rewrite B6, A6, L. destruct (_ && _); reflexivity.
Qed.

Lemma collide_ok s k a pa pb raw ok : inv s -> refines s k -> 0 < bk_now k -> length raw <= 2 ->
  exists s2, cs_collide s a pa pb raw ok = Some s2 /\ inv s2 /\ refines s2 (happen k (Touch a pa pb raw ok)).
Proof.
  intros J R P L. pose proof R as (Now & _). rewrite <- Now in P. unfold cs_collide.
  destruct (get_array_ok s J P) as (s1 & h & n & -> & Hd).
  assert (L2 : max_contacts <? length raw = false) by (apply Nat.ltb_ge; exact L). rewrite L2.
  pose proof (handed_free s s1 h n Hd) as Free. pose proof Hd as (J1 & Hh & Lh & Sh & Nh & Room & Ks & Ka & Rd).
  destruct (push_raw_wrote raw s1 h n) as (l & W & Fl). set (s2 := push_raw s1 h n raw) in *.
  pose proof (F2_len _ _ _ Fl) as Ll. pose proof W as (W1 & W2 & W3 & W4 & W5 & W6).
  destruct (length raw) as [|m] eqn:Lr.
  { destruct raw; [|discriminate]. exists s1. split; [reflexivity|].
    split.
    - split; [exact J1|]. split; [intros h' E; congruence|]. intros _. congruence.
    - cbn [happen]. destruct R as (Nw & A). split; [now rewrite Ks|]. intros b. rewrite Ka. specialize (A b). unfold agrees in *.
      destruct (k_arbs s b) as [y|] eqn:Y; [|exact A]. destruct (bk_note k b); [|contradiction]. now rewrite (Rd b y Y). }
  assert (Q : happen k (Touch a pa pb raw ok) = set_note k a (Some (mkNote (bk_now k) false (if ok then map (warm pa pb (contacts_of k a)) raw else [])))).
  { cbn [happen]. destruct raw; [discriminate|reflexivity]. }
  rewrite Q. clear Q. rewrite <- Lr in *. clear Lr m.
  set (s3 := push_contacts s2 (length raw)).
  assert (Hh2 : k_head s2 = Some h) by (rewrite W3; exact Hh).
  destruct (set_num_rest s2 (fun k => k + length raw)) as (T1 & T2 & T3 & T4). fold s3 in T1, T2, T3, T4. change (set_num s2 (fun k => k + length raw)) with s3 in *.
  assert (B3 := fun c => set_num_bufs s2 h (fun k => k + length raw) c Hh2). change (set_num s2 (fun k => k + length raw)) with s3 in B3.
  set (x := match k_arbs s3 a with Some x => x | None => _ end).
  assert (Ex : x = match k_arbs s a with Some x => x | None => mkCArb 0 0 MNil true end) by (unfold x; now rewrite T4, W4, Ka).
  assert (Below : forall o, x_mem x = MRing h o -> o + x_count x <= n \/ x_count x = 0).
  { intros o M. destruct (Nat.eq_dec (x_count x) 0) as [Z|Z]; [now right|left].
    rewrite Ex in *. destruct (k_arbs s a) as [y|] eqn:Y; [|discriminate]. apply (Free a o (x_count y) y). repeat split; [now rewrite Ka|exact M|lia]. }
  pose proof (update_wrote (length raw) s3 x pa pb h n Below) as W'. set (s4 := update_loop s3 x pa pb h n (length raw)) in *.
  set (l' := map _ _) in W'. pose proof W' as (V1 & V2 & V3 & V4 & V5 & V6).
  assert (Old : mem_read s3 (x_mem x) (x_count x) = mem_read s (x_mem x) (x_count x)).
  { transitivity (mem_read s2 (x_mem x) (x_count x)); [apply read_ext; intros c o i _ _; apply B3|].
    transitivity (mem_read s1 (x_mem x) (x_count x)).
    - eapply wrote_trans_read; [exact W|]. intros o i M Hi. destruct (Below o M); lia.
    - rewrite Ex. destruct (k_arbs s a) as [y|] eqn:Y; [apply (Rd a y Y)|reflexivity]. }
  assert (Lm : length l' = length raw) by (unfold l'; now rewrite map_length, seq_length).
  assert (New : Forall2 same_contact l' (map (warm pa pb (contacts_of k a)) raw)).
  { assert (Fo : Forall2 same_contact (mem_read s (x_mem x) (x_count x)) (contacts_of k a)) by (rewrite Ex; apply (agrees_default s k a R)).
    assert (El : l' = map (con_update pa pb (mem_read s (x_mem x) (x_count x))) l).
    { unfold l'. rewrite Old. rewrite <- (wrote_read s1 s2 h n l (length raw) W (eq_sym Ll)). cbn [mem_read]. rewrite map_map.
      apply map_ext. intros i. f_equal. apply B3. }
    rewrite El. clear El. revert Fo. generalize (mem_read s (x_mem x) (x_count x)) as old. intros old Fo. clear - Fl Fo. induction Fl as [|c r l raw (A & B & E) _ IH]; [constructor|]. cbn [map]. constructor; [|exact IH].
    now apply update_same. }
  assert (Base : forall c, u_stamp (k_bufs s4 c) = u_stamp (k_bufs s1 c) /\ u_next (k_bufs s4 c) = u_next (k_bufs s1 c) /\
             u_num (k_bufs s4 c) = if c =? h then n + length raw else u_num (k_bufs s1 c)).
  { intros c. destruct (V5 c) as (-> & -> & ->). destruct (B3 c) as (-> & -> & _ & ->). destruct (W5 c) as (-> & -> & ->).
    destruct (W5 h) as (_ & _ & ->). rewrite Nh. auto. }
  assert (Sl : forall c j, c <> h \/ j < n -> slot s4 c j = slot s1 c j).
  { intros c j O. rewrite V6. destruct (B3 c) as (_ & _ & -> & _). rewrite W6.
    assert (F : (c =? h) && (n <=? j) = false).
    { destruct O as [O|O]; [rewrite (proj2 (Nat.eqb_neq c h) O); reflexivity|]. rewrite (proj2 (Nat.leb_gt n j) O). apply andb_false_r. }
    now rewrite F. }
  assert (K4 : k_stamp s4 = k_stamp s1) by (rewrite V1, T1, W1; reflexivity).
  assert (N4 : k_nbufs s4 = k_nbufs s1) by (rewrite V2, T2, W2; reflexivity).
  assert (H4 : k_head s4 = k_head s1) by (rewrite V3, T3, W3; reflexivity).
  assert (A4 : k_arbs s4 = k_arbs s1) by (rewrite V4, T4, W4; reflexivity).
  destruct ok.
  - set (s5 := with_arbs s4 _). exists s5. split; [destruct raw; reflexivity|].
    destruct (settle s s1 s5 h n (length raw) a (mkCArb (k_stamp s4) (length raw) (MRing h n) true)) as (J5 & R5); try assumption.
    + unfold s5. cbn. now rewrite A4.
    + reflexivity.
    + now left.
    + split; [exact J5|]. eapply (refines_upd s s5 k _ a (Some _) (Some _)); [exact R| | | | | |].
      * unfold s5. cbn. now rewrite K4.
      * reflexivity.
      * unfold s5. cbn. rewrite A4, Ka. reflexivity.
      * intros b. reflexivity.
      * exact R5.
      * cbn [agrees nt_stamp nt_stored nt_contacts x_stamp x_cached x_mem x_count]. split; [congruence|]. split; [reflexivity|].
        replace (mem_read s5 (MRing h n) (length raw)) with l'; [exact New|].
        symmetry. apply (wrote_read s3 s4 h n l' (length raw) W'). now symmetry.
  - set (s5 := with_arbs _ _). exists s5. split; [destruct raw; reflexivity|].
    assert (Hh4 : k_head s4 = Some h) by (rewrite H4; exact Hh).
    destruct (set_num_rest s4 (fun k => k - length raw)) as (U1 & U2 & U3 & U4).
    assert (B5 := fun c => set_num_bufs s4 h (fun k => k - length raw) c Hh4).
    destruct (settle s s1 s5 h n 0 a (mkCArb (k_stamp s4) 0 MNil true)) as (J5 & R5); try assumption.
    + unfold s5, pop_contacts. cbn. now rewrite U1.
    + unfold s5, pop_contacts. cbn. now rewrite U2.
    + unfold s5, pop_contacts. cbn. now rewrite U3.
    + intros c. unfold s5, pop_contacts. cbn. destruct (B5 c) as (-> & -> & _ & ->). destruct (Base c) as (-> & -> & ->).
      destruct (Base h) as (_ & _ & ->). rewrite Nat.eqb_refl. repeat split. destruct (c =? h); lia.
    + intros c j O. unfold s5, pop_contacts. transitivity (slot s4 c j); [apply B5|now apply Sl].
    + unfold s5, pop_contacts. cbn. rewrite U4, U1, A4. reflexivity.
    + unfold max_contacts. lia.
    + reflexivity.
    + now right.
    + split; [exact J5|]. eapply (refines_upd s s5 k _ a (Some _) (Some _)); [exact R| | | | | |].
      * unfold s5, pop_contacts. cbn. now rewrite U1, K4.
      * reflexivity.
      * unfold s5, pop_contacts. cbn. rewrite U4, A4, Ka. reflexivity.
      * intros b. reflexivity.
      * exact R5.
      * cbn. split; [unfold pop_contacts; rewrite U1; congruence|]. split; [reflexivity|constructor].
Qed.

Lemma restore_ok s k a : inv s -> refines s k -> 0 < bk_now k ->
  exists s2, cs_restore s a = Some s2 /\ inv s2 /\ refines s2 (happen k (Wake a)).
Proof.
  intros J R P. pose proof R as (Now & Ag). rewrite <- Now in P. unfold cs_restore. cbn [happen].
  pose proof (Ag a) as Aga. unfold agrees in Aga.
  destruct (k_arbs s a) as [x|] eqn:X; destruct (bk_note k a) as [nt|] eqn:Nt; try contradiction; [|now exists s].
  destruct (get_array_ok s J P) as (s1 & h & n & -> & Hd).
  pose proof (handed_free s s1 h n Hd) as Free. pose proof Hd as (J1 & Hh & Lh & Sh & Nh & Room & Ks & Ka & Rd).
  destruct (i_arb s1 J1 a x ltac:(now rewrite Ka)) as (C2 & _). rewrite (proj2 (Nat.ltb_ge max_contacts (x_count x)) C2).
  assert (Len : length (mem_read s1 (x_mem x) (x_count x)) = x_count x) by (apply (read_len s1 a x J1); now rewrite Ka).
  rewrite (Rd a x X) in *. set (l := mem_read s (x_mem x) (x_count x)) in *.
  pose proof (set_slots_wrote l s1 h n) as W. set (s2 := set_slots s1 h n l) in *. pose proof W as (W1 & W2 & W3 & W4 & W5 & W6).
  assert (Hh2 : k_head s2 = Some h) by (rewrite W3; exact Hh).
  destruct (set_num_rest s2 (fun k => k + x_count x)) as (T1 & T2 & T3 & T4).
  assert (B3 := fun c => set_num_bufs s2 h (fun k => k + x_count x) c Hh2).
  set (s5 := with_arbs _ _). exists s5. split; [reflexivity|].
  destruct (settle s s1 s5 h n (x_count x) a (mkCArb (k_stamp s1) (x_count x) (MRing h n) true)) as (J5 & R5); try assumption.
  - unfold s5, push_contacts. cbn. now rewrite T1, W1.
  - unfold s5, push_contacts. cbn. now rewrite T2, W2.
  - unfold s5, push_contacts. cbn. now rewrite T3, W3.
  - intros c. unfold s5, push_contacts. cbn. destruct (B3 c) as (-> & -> & _ & ->). destruct (W5 c) as (-> & -> & ->).
    destruct (W5 h) as (_ & _ & ->). rewrite Nh. auto.
  - intros c j O. unfold s5, push_contacts. transitivity (slot s2 c j); [apply B3|]. rewrite W6.
    assert (F : (c =? h) && (n <=? j) = false).
    { destruct O as [O|O]; [rewrite (proj2 (Nat.eqb_neq c h) O); reflexivity|]. rewrite (proj2 (Nat.leb_gt n j) O). apply andb_false_r. }
    now rewrite F.
  - unfold s5, push_contacts. cbn. rewrite T4, T1, W4, W1. reflexivity.
  - reflexivity.
  - reflexivity.
  - now left.
  - split; [exact J5|]. eapply (refines_upd s s5 k _ a (Some _) (Some _)); [exact R| | | | | |].
    + unfold s5, push_contacts. cbn. now rewrite T1, W1.
    + reflexivity.
    + unfold s5, push_contacts. cbn. rewrite T4, T1, W4, W1, Ka. reflexivity.
    + intros b. reflexivity.
    + exact R5.
    + cbn [agrees nt_stamp nt_stored nt_contacts x_stamp x_cached x_mem x_count]. split; [congruence|]. split; [reflexivity|].
      replace (mem_read s5 (MRing h n) (x_count x)) with l; [apply Aga|]. symmetry.
      transitivity (mem_read s2 (MRing h n) (x_count x)); [apply read_ext; intros c o i _ _; apply B3|]. apply (wrote_read s1 s2 h n l); [exact W|now symmetry].
Qed.

(** changes of one arbiter that leave the buffers alone *)
Lemma inv_arb s a x' : inv s ->
  match x' with
  | None => True
  | Some y => x_count y <= max_contacts /\ (x_mem y = MNil -> x_count y = 0) /\ (forall l, x_mem y = MOwn l -> length l = x_count y) /\
              (forall b off, x_mem y = MRing b off -> x_count y <> 0 -> k_arbs s a = Some y)
  end -> inv (with_arbs s (upd (k_arbs s) a x')).
Proof.
  intros (J & C & Hd) E.
  assert (Rf : forall b c o m y, ref (with_arbs s (upd (k_arbs s) a x')) b c o m y -> ref s b c o m y).
  { intros b c o m y (A & B & D & F). cbn in A. unfold upd in A. destruct (b =? a) eqn:Q; [|now repeat split].
    apply Nat.eqb_eq in Q. subst b. subst x'. destruct E as (_ & _ & _ & E). repeat split; try assumption. apply (E c o B). lia. }
  split; [|split; [exact C|exact Hd]]. constructor.
  - exact (i_head s J).
  - exact (i_buf s J).
  - intros b c o m y R. exact (i_ref s J _ _ _ _ _ (Rf _ _ _ _ _ R)).
  - intros b c o m y b' o' m' y' R R'. exact (i_dis s J _ _ _ _ _ _ _ _ _ (Rf _ _ _ _ _ R) (Rf _ _ _ _ _ R')).
  - intros b y A. cbn in A. unfold upd in A. destruct (b =? a) eqn:Q; [|exact (i_arb s J b y A)]. subst x'. now destruct E as (E1 & E2 & E3 & _).
Qed.
Lemma refines_arb s k a x' n' : refines s k -> agrees s x' n' -> refines (with_arbs s (upd (k_arbs s) a x')) (set_note k a n').
Proof.
  intros R A. eapply refines_upd; [exact R|reflexivity|reflexivity|reflexivity|reflexivity| |exact A]. intros b y _ _. reflexivity.
Qed.

Lemma store_ok s k a : inv s -> refines s k -> inv (cs_store s a) /\ refines (cs_store s a) (happen k (Rest a)).
Proof.
  intros J R. pose proof R as (_ & Ag). specialize (Ag a). unfold cs_store, recall, agrees in *. cbn [happen].
  destruct (k_arbs s a) as [x|] eqn:X; destruct (bk_note k a) as [nt|] eqn:Nt; try contradiction; [|now split].
  assert (Len : length (mem_read s (x_mem x) (x_count x)) = x_count x) by (apply (read_len s a x); [apply J|exact X]).
  destruct (i_arb s (proj1 J) a x X) as (C2 & _). split.
  - apply inv_arb; [exact J|]. cbn. split; [exact C2|]. split; [discriminate|]. split; [intros l E; now injection E as <-|discriminate].
  - apply refines_arb; [exact R|]. cbn. destruct Ag as (A & _ & F). split; [exact A|]. split; [reflexivity|].
    rewrite <- Len at 1. now rewrite firstn_all.
Qed.
Lemma write_ok s k a l : inv s -> refines s k -> inv (cs_write s a l) /\ refines (cs_write s a l) (happen k (Write a l)).
Proof.
  intros J R. pose proof R as (_ & Ag). specialize (Ag a). unfold cs_write, agrees in *. cbn [happen].
  destruct (k_arbs s a) as [x|] eqn:X; destruct (bk_note k a) as [nt|] eqn:Nt; try contradiction; [|now split].
  destruct Ag as (A & B & F).
  assert (Len : length (mem_read s (x_mem x) (x_count x)) = x_count x) by (apply (read_len s a x); [apply J|exact X]).
  rewrite <- (F2_len _ _ _ F), Len. destruct (length l =? x_count x) eqn:E; [|now split]. apply Nat.eqb_eq in E.
  destruct (i_arb s (proj1 J) a x X) as (C2 & Cn & Co). destruct (x_mem x) as [|b off|l0] eqn:M.
  - rewrite (Cn eq_refl) in E. destruct l; [|discriminate]. split; [exact J|]. destruct R as (Nw & Ag). split; [exact Nw|].
    intros b. cbn. destruct (b =? a) eqn:Q; [|apply Ag]. apply Nat.eqb_eq in Q. subst b. rewrite X. cbn. rewrite M.
    split; [exact A|]. split; [exact B|constructor].
  - pose proof (set_slots_wrote l s b off) as W. set (s2 := set_slots s b off l) in *. pose proof W as (W1 & W2 & W3 & W4 & W5 & W6).
    assert (Rf : forall a' c o m y, ref s2 a' c o m y <-> ref s a' c o m y) by (intros; unfold ref; rewrite W4; reflexivity).
    assert (Rd : forall a' y, a' <> a -> k_arbs s a' = Some y -> mem_read s2 (x_mem y) (x_count y) = mem_read s (x_mem y) (x_count y)).
    { intros a' y N Y. apply read_ext. intros c o i My Hi. rewrite W6. destruct (c =? b) eqn:Q; [|reflexivity]. apply Nat.eqb_eq in Q. subst c.
      destruct (Nat.eq_dec (x_count x) 0) as [Z|Z].
      { rewrite Z in E. destruct l; [|discriminate]. cbn [length andb]. destruct (off <=? o + i) eqn:U; [|reflexivity]. apply Nat.leb_le in U.
        rewrite (proj2 (Nat.ltb_ge (o + i) (off + 0))) by lia. reflexivity. }
      destruct (i_dis s (proj1 J) a b off (x_count x) x a' o (x_count y) y) as [D|D]; [| |congruence| |].
      - repeat split; [exact X|exact M|lia].
      - repeat split; [exact Y|exact My|lia].
      - rewrite (proj2 (Nat.ltb_ge (o + i) (off + length l))) by lia. now rewrite andb_false_r.
      - rewrite (proj2 (Nat.leb_gt off (o + i))) by lia. reflexivity. }
    split.
    + destruct J as (J & C & Hd). split; [|split].
      * constructor.
        -- rewrite W3, W2. exact (i_head s J).
        -- intros c L. rewrite W2 in L. destruct (W5 c) as (-> & -> & ->). rewrite W1, W2. now apply (i_buf s J).
        -- intros a' c o m y R'. apply Rf in R'. destruct (W5 c) as (-> & _ & ->). rewrite W1, W2. exact (i_ref s J _ _ _ _ _ R').
        -- intros a' c o m y b' o' m' y' R1 R2. apply Rf in R1. apply Rf in R2. exact (i_dis s J _ _ _ _ _ _ _ _ _ R1 R2).
        -- intros a' y Y. rewrite W4 in Y. exact (i_arb s J a' y Y).
      * intros h E'. rewrite W3 in E'. destruct (W5 h) as (-> & _). rewrite W1. now apply C.
      * rewrite W1, W3. exact Hd.
    + eapply (refines_upd s s2 k _ a (Some x) (Some _)); [exact R|exact W1|reflexivity| |reflexivity|exact Rd|].
      * intros c. rewrite W4. unfold upd. destruct (c =? a) eqn:Q; [|reflexivity]. apply Nat.eqb_eq in Q. now subst c.
      * cbn. split; [exact A|]. split; [exact B|]. rewrite M. rewrite (wrote_read s s2 b off l (x_count x) W) by (now symmetry). apply same_refl.
  - split.
    + apply inv_arb; [exact J|]. cbn. split; [exact C2|]. split; [discriminate|]. split; [intros l' E'; injection E' as <-; exact E|discriminate].
    + apply refines_arb; [exact R|]. cbn. split; [exact A|]. split; [exact B|]. rewrite <- E, firstn_all. apply same_refl.
Qed.
End Pf.
