(** Proofs about the contact buffers (Model/Contacts.v) *)
From Coq Require Import ZArith Arith Bool List Lia.
From Verif Require Import Num SpecContacts.
From Verif.Model Require Import Vector Solver Contacts.
Import ListNotations.
Local Open Scope nat_scope.

Section Pf.
Context {T : Type} `{Num T}.
Notation Con := (Contact T).
Implicit Types s : CSpace T.

Lemma upd_eq {A} (f : nat -> A) i x : upd f i x i = x.
Proof. unfold upd. now rewrite Nat.eqb_refl. Qed.
Lemma upd_ne {A} (f : nat -> A) i j x : j <> i -> upd f i x j = f j.
Proof. intros N. unfold upd. apply Nat.eqb_neq in N. now rewrite N. Qed.

(** the arbiter [a] refers to [n] > 0 contacts of buffer [b] from [off] on *)
Definition ref s (a b off n : nat) (x : CArb T) : Prop :=
  k_arbs s a = Some x /\ x_mem x = MRing b off /\ x_count x = n /\ 0 < n.

Record inv0 s : Prop := mkInv {
  i_head : forall h, k_head s = Some h -> h < k_nbufs s;
  i_buf : forall b, b < k_nbufs s -> u_stamp (k_bufs s b) <= k_stamp s /\ u_num (k_bufs s b) <= buffer_size /\ u_next (k_bufs s b) < k_nbufs s;
  i_ref : forall a b off n x, ref s a b off n x ->
    b < k_nbufs s /\ x_stamp x = u_stamp (k_bufs s b) /\ off + n <= u_num (k_bufs s b) /\ k_stamp s - x_stamp x <= persistence /\ x_cached x = true;
  i_dis : forall a b off n x a' off' n' x', ref s a b off n x -> ref s a' b off' n' x' -> a <> a' -> off + n <= off' \/ off' + n' <= off;
  i_arb : forall a x, k_arbs s a = Some x -> x_count x <= max_contacts /\
    (x_mem x = MNil -> x_count x = 0) /\ (forall l, x_mem x = MOwn l -> length l = x_count x) }.
Definition current s : Prop := forall h, k_head s = Some h -> u_stamp (k_bufs s h) = k_stamp s.
Definition inv s : Prop := inv0 s /\ current s /\ (0 < k_stamp s -> k_head s <> None).

Lemma read_ext s s' m n : (forall b off i, m = MRing b off -> i < n -> slot s' b (off + i) = slot s b (off + i)) ->
  mem_read s' m n = mem_read s m n.
Proof.
  intros E. destruct m as [|b off|l]; try reflexivity. cbn [mem_read].
  apply map_ext_in. intros i Hi. apply in_seq in Hi. apply (E b off i eq_refl). lia.
Qed.
Lemma read_len s a x : inv0 s -> k_arbs s a = Some x -> length (mem_read s (x_mem x) (x_count x)) = x_count x.
Proof.
  intros J E. destruct (i_arb s J a x E) as (_ & Hn & Ho).
  destruct (x_mem x) as [|b off|l] eqn:M; cbn [mem_read].
  - rewrite (Hn eq_refl). reflexivity.
  - now rewrite map_length, seq_length.
  - specialize (Ho l eq_refl). rewrite firstn_length. lia.
Qed.

(** a push of a fresh buffer *)
Lemma push_fresh_ok s : inv0 s -> exists h, k_head (push_fresh s) = Some h /\ inv0 (push_fresh s) /\
  u_stamp (k_bufs (push_fresh s) h) = k_stamp s /\ u_num (k_bufs (push_fresh s) h) = 0 /\
  k_stamp (push_fresh s) = k_stamp s /\ k_arbs (push_fresh s) = k_arbs s /\
  (forall a x, k_arbs s a = Some x -> mem_read (push_fresh s) (x_mem x) (x_count x) = mem_read s (x_mem x) (x_count x)).
Proof.
  intros J. unfold push_fresh. destruct (k_head s) as [h|] eqn:Hh.
  - assert (Lh : h < k_nbufs s) by (apply (i_head s J); exact Hh).
    destruct (i_buf s J h Lh) as (Sh & Nh & Th). set (t := u_next (k_bufs s h)) in *.
    destruct (i_buf s J t Th) as (St & Nt & Tt).
    destruct (persistence <? k_stamp s - u_stamp (k_bufs s t)) eqn:Old.
    + apply Nat.ltb_lt in Old.
      assert (Free : forall a b off n x, ref s a b off n x -> b <> t).
      { intros a b off n x R ->. destruct (i_ref s J a t off n x R) as (_ & E & _ & Y & _). rewrite E in Y. lia. }
      assert (Same : forall b, b <> t -> k_bufs (with_head (init_header s t (k_stamp s) (Some t)) t) b = k_bufs s b).
      { intros b N. cbn. now apply upd_ne. }
      exists t. split; [reflexivity|]. split; [|split; [|split; [|split; [|split]]]].
      * constructor.
        -- intros h' E. cbn in E. injection E as <-. exact Th.
        -- intros b L. cbn in L. destruct (Nat.eq_dec b t) as [->|N].
           ++ cbn. rewrite upd_eq. cbn. repeat split; lia.
           ++ rewrite (Same b N). now apply (i_buf s J).
        -- intros a b off n x R. assert (R' : ref s a b off n x) by exact R.
           rewrite (Same b (Free _ _ _ _ _ R')). exact (i_ref s J a b off n x R').
        -- intros a b off n x a' off' n' x' R1 R2. exact (i_dis s J a b off n x a' off' n' x' R1 R2).
        -- intros a x E. exact (i_arb s J a x E).
      * cbn. rewrite upd_eq. reflexivity.
      * cbn. rewrite upd_eq. reflexivity.
      * reflexivity.
      * reflexivity.
      * intros a x E. apply read_ext. intros b off i M Hi. unfold slot. rewrite Same; [reflexivity|].
        apply (Free a b off (x_count x) x). repeat split; [exact E|exact M|lia].
    + set (c := k_nbufs s) in *.
      set (s1 := let '(s0, c0) := new_buffer s (k_stamp s) (Some h) in
        with_head (with_bufs s0 (upd (k_bufs s0) h
          {| u_stamp := u_stamp (k_bufs s0 h); u_next := c0; u_num := u_num (k_bufs s0 h); u_con := u_con (k_bufs s0 h) |})) c0).
      assert (Other : forall b, b <> c -> u_stamp (k_bufs s1 b) = u_stamp (k_bufs s b) /\ u_num (k_bufs s1 b) = u_num (k_bufs s b) /\
                u_con (k_bufs s1 b) = u_con (k_bufs s b) /\ (u_next (k_bufs s1 b) = u_next (k_bufs s b) \/ u_next (k_bufs s1 b) = c)).
      { intros b N. unfold s1. cbn. destruct (Nat.eq_dec b h) as [->|Nh'].
        - rewrite upd_eq. cbn. fold c. rewrite !upd_ne by lia. auto.
        - rewrite (upd_ne _ h) by exact Nh'. fold c. rewrite !upd_ne by exact N. auto. }
      assert (Newb : k_bufs s1 c = mkCBuf (k_stamp s) t 0 (fun _ => zero_con)).
      { unfold s1. cbn. fold c. rewrite (upd_ne _ h) by lia. rewrite upd_eq. rewrite upd_eq. rewrite (upd_ne _ c) by lia. reflexivity. }
      assert (Below : forall a b off n x, ref s a b off n x -> b <> c).
      { intros a b off n x R. destruct (i_ref s J a b off n x R) as (L & _). unfold c. lia. }
      exists c. split; [reflexivity|]. split; [|split; [|split; [|split; [|split]]]].
      * constructor.
        -- intros h' E. cbn in E. injection E as <-. cbn. fold c. lia.
        -- intros b L. change (k_nbufs s1) with (S c) in *. change (k_stamp s1) with (k_stamp s) in *.
           destruct (Nat.eq_dec b c) as [->|N].
           ++ rewrite Newb. cbn [u_stamp u_num u_next]. unfold buffer_size, c in *. repeat split; lia.
           ++ destruct (Other b N) as (-> & -> & _ & Nx). destruct (i_buf s J b ltac:(unfold c in *; lia)) as (A & B & D).
              repeat split; [exact A|exact B|]. destruct Nx as [-> | ->]; unfold c in *; lia.
        -- intros a b off n x R. assert (R' : ref s a b off n x) by exact R.
           destruct (Other b (Below _ _ _ _ _ R')) as (-> & -> & _ & _).
           change (k_nbufs s1) with (S c). change (k_stamp s1) with (k_stamp s).
           destruct (i_ref s J a b off n x R') as (A & B). split; [unfold c; lia|exact B].
        -- intros a b off n x a' off' n' x' R1 R2. exact (i_dis s J a b off n x a' off' n' x' R1 R2).
        -- intros a x E. exact (i_arb s J a x E).
      * change (u_stamp (k_bufs s1 c) = k_stamp s). now rewrite Newb.
      * change (u_num (k_bufs s1 c) = 0). now rewrite Newb.
      * reflexivity.
      * reflexivity.
      * intros a x E. apply (read_ext s s1). intros b off i M Hi. unfold slot.
        destruct (Other b) as (_ & _ & -> & _); [|reflexivity].
        apply (Below a b off (x_count x) x). repeat split; [exact E|exact M|lia].
  - set (c := k_nbufs s) in *.
    set (s1 := let '(s0, c0) := new_buffer s (k_stamp s) None in with_head s0 c0).
    assert (Other : forall b, b <> c -> k_bufs s1 b = k_bufs s b).
    { intros b N. unfold s1. cbn. fold c. now rewrite !upd_ne by exact N. }
    assert (Newb : k_bufs s1 c = mkCBuf (k_stamp s) c 0 (fun _ => zero_con)).
    { unfold s1. cbn. fold c. now rewrite !upd_eq. }
    assert (Below : forall a b off n x, ref s a b off n x -> b <> c).
    { intros a b off n x R. destruct (i_ref s J a b off n x R) as (L & _). unfold c. lia. }
    exists c. split; [reflexivity|]. split; [|split; [|split; [|split; [|split]]]].
    + constructor.
      * intros h' E. cbn in E. injection E as <-. cbn. fold c. lia.
      * intros b L. change (k_nbufs s1) with (S c) in *. change (k_stamp s1) with (k_stamp s) in *.
        destruct (Nat.eq_dec b c) as [->|N].
        -- rewrite Newb. cbn [u_stamp u_num u_next]. unfold buffer_size. repeat split; lia.
        -- rewrite (Other b N). destruct (i_buf s J b ltac:(unfold c in *; lia)) as (A & B & D). unfold c. repeat split; lia.
      * intros a b off n x R. assert (R' : ref s a b off n x) by exact R.
        rewrite (Other b (Below _ _ _ _ _ R')). change (k_nbufs s1) with (S c). change (k_stamp s1) with (k_stamp s).
        destruct (i_ref s J a b off n x R') as (A & B). split; [unfold c; lia|exact B].
      * intros a b off n x a' off' n' x' R1 R2. exact (i_dis s J a b off n x a' off' n' x' R1 R2).
      * intros a x E. exact (i_arb s J a x E).
    + change (u_stamp (k_bufs s1 c) = k_stamp s). now rewrite Newb.
    + change (u_num (k_bufs s1 c) = 0). now rewrite Newb.
    + reflexivity.
    + reflexivity.
    + intros a x E. apply (read_ext s s1). intros b off i M Hi. unfold slot. rewrite Other; [reflexivity|].
      apply (Below a b off (x_count x) x). repeat split; [exact E|exact M|lia].
Qed.

(** the array handed out *)
Definition handed s s' (h n : nat) : Prop :=
  inv0 s' /\ k_head s' = Some h /\ h < k_nbufs s' /\ u_stamp (k_bufs s' h) = k_stamp s' /\ u_num (k_bufs s' h) = n /\ n + max_contacts <= buffer_size /\
  k_stamp s' = k_stamp s /\ k_arbs s' = k_arbs s /\
  (forall a x, k_arbs s a = Some x -> mem_read s' (x_mem x) (x_count x) = mem_read s (x_mem x) (x_count x)).
Lemma get_array_ok s : inv s -> 0 < k_stamp s -> exists s' h n, get_array s = Some (s', h, n) /\ handed s s' h n.
Proof.
  intros (J & C & Hh) P. unfold get_array. destruct (k_head s) as [h|] eqn:E; [|now destruct (Hh P)].
  destruct (buffer_size <? u_num (k_bufs s h) + max_contacts) eqn:F.
  - destruct (push_fresh_ok s J) as (h' & E' & J' & S' & N' & K' & A' & R'). rewrite E', N'.
    exists (push_fresh s), h', 0. split; [reflexivity|].
    split; [exact J'|]. split; [exact E'|]. split; [now apply J'|]. split; [now rewrite S', K'|]. split; [exact N'|].
    split; [unfold max_contacts, buffer_size; lia|]. split; [exact K'|]. split; [exact A'|exact R'].
  - apply Nat.ltb_ge in F. rewrite E. assert (L : u_num (k_bufs s h) + max_contacts <=? buffer_size = true) by (apply Nat.leb_le; exact F).
    rewrite L. exists s, h, (u_num (k_bufs s h)). split; [reflexivity|].
    split; [exact J|]. split; [exact E|]. split; [now apply J|]. split; [now apply C|]. split; [reflexivity|].
    split; [exact F|]. split; [reflexivity|]. split; [reflexivity|]. intros a x _. reflexivity.
Qed.
(** nobody refers to the array handed out *)
Lemma handed_free s s' h n : handed s s' h n -> forall a o m x, ref s' a h o m x -> o + m <= n.
Proof. intros (J & _ & _ & _ & N & _) a o m x R. destruct (i_ref s' J a h o m x R) as (_ & _ & L & _). lia. Qed.

(** what writing contacts changes: the slots [off ..] of buffer [b], nothing else *)
Definition wrote s s' (b off : nat) (l : list Con) : Prop :=
  k_stamp s' = k_stamp s /\ k_nbufs s' = k_nbufs s /\ k_head s' = k_head s /\ k_arbs s' = k_arbs s /\
  (forall c, u_stamp (k_bufs s' c) = u_stamp (k_bufs s c) /\ u_next (k_bufs s' c) = u_next (k_bufs s c) /\ u_num (k_bufs s' c) = u_num (k_bufs s c)) /\
  (forall c j, slot s' c j = if (c =? b) && (off <=? j) && (j <? off + length l) then nth (j - off) l zero_con else slot s c j).

Lemma wrote_nil s b off : wrote s s b off [].
Proof.
  repeat split. intros c j. cbn [length]. destruct (off <=? j) eqn:A; [|now rewrite andb_false_r]. apply Nat.leb_le in A.
  assert (B : j <? off + 0 = false) by (apply Nat.ltb_ge; lia). now rewrite B, andb_false_r.
Qed.
Lemma slot_set s b i c b' j : slot (set_slot s b i c) b' j = if (b' =? b) && (j =? i) then c else slot s b' j.
Proof.
  unfold slot, set_slot. cbn. unfold upd at 1. destruct (b' =? b) eqn:E; cbn; [|reflexivity].
  apply Nat.eqb_eq in E. subst. unfold upd. reflexivity.
Qed.
Lemma wrote_cons s s' b off c l : wrote (set_slot s b off c) s' b (S off) l -> wrote s s' b off (c :: l).
Proof.
  intros (A1 & A2 & A3 & A4 & A5 & A6). repeat split; try (rewrite ?A1, ?A2, ?A3, ?A4; reflexivity).
  - destruct (A5 c0) as (-> & _ & _). unfold set_slot. cbn. unfold upd. destruct (c0 =? b) eqn:E; [apply Nat.eqb_eq in E; subst|]; reflexivity.
  - destruct (A5 c0) as (_ & -> & _). unfold set_slot. cbn. unfold upd. destruct (c0 =? b) eqn:E; [apply Nat.eqb_eq in E; subst|]; reflexivity.
  - destruct (A5 c0) as (_ & _ & ->). unfold set_slot. cbn. unfold upd. destruct (c0 =? b) eqn:E; [apply Nat.eqb_eq in E; subst|]; reflexivity.
  - intros c' j. rewrite A6, slot_set. cbn [length]. destruct (c' =? b); cbn [andb]; [|reflexivity].
    destruct (Nat.eq_dec j off) as [->|N].
    + rewrite (proj2 (Nat.leb_gt (S off) off)) by lia. cbn [andb]. rewrite Nat.eqb_refl, Nat.leb_refl.
      rewrite (proj2 (Nat.ltb_lt off (off + S (length l)))) by lia. cbn [andb]. now rewrite Nat.sub_diag.
    + rewrite (proj2 (Nat.eqb_neq j off)) by exact N. destruct (off <=? j) eqn:L.
      * apply Nat.leb_le in L. rewrite (proj2 (Nat.leb_le (S off) j)) by lia. cbn [andb].
        replace (off + S (length l)) with (S off + length l) by lia.
        destruct (j <? S off + length l); [|reflexivity]. replace (j - off) with (S (j - S off)) by lia. reflexivity.
      * apply Nat.leb_gt in L. rewrite (proj2 (Nat.leb_gt (S off) j)) by lia. reflexivity.
Qed.
Lemma wrote_read s s' b off l n : wrote s s' b off l -> n = length l -> mem_read s' (MRing b off) n = l.
Proof.
  intros (_ & _ & _ & _ & _ & A6) ->. cbn [mem_read]. transitivity (map (fun i => nth i l zero_con) (seq 0 (length l))).
  - apply map_ext_in. intros i Hi. apply in_seq in Hi. rewrite A6, Nat.eqb_refl.
    rewrite (proj2 (Nat.leb_le off (off + i))) by lia. rewrite (proj2 (Nat.ltb_lt (off + i) (off + length l))) by lia. cbn [andb]. f_equal. lia.
  - apply nth_ext with (d := zero_con) (d' := zero_con); [now rewrite map_length, seq_length|].
    intros n Hn. rewrite map_length, seq_length in Hn.
    rewrite (nth_indep _ zero_con (nth 0 l zero_con)) by (now rewrite map_length, seq_length).
    rewrite (map_nth (fun i => nth i l zero_con) (seq 0 (length l)) 0 n). now rewrite seq_nth.
Qed.
Lemma set_slots_wrote l : forall s b off, wrote s (set_slots s b off l) b off l.
Proof. induction l as [|c l IH]; intros s b off; [apply wrote_nil|]. cbn [set_slots]. apply wrote_cons. apply IH. Qed.

(** the contacts pushed by the narrow phase *)
Lemma push_raw_wrote raw : forall s b off, exists l, wrote s (push_raw s b off raw) b off l /\
  Forall2 (fun (c : Con) (r : Raw T) => c_r1 c = fst (fst r) /\ c_r2 c = snd (fst r) /\ c_hash c = snd r) l raw.
Proof.
  induction raw as [|[[p1 p2] h] raw IH]; intros s b off; cbn [push_raw].
  - exists []. split; [apply wrote_nil|constructor].
  - match goal with |- context [set_slot s b off ?c] => set (c0 := c) end.
    destruct (IH (set_slot s b off c0) b (S off)) as (l & W & F). exists (c0 :: l).
    split; [now apply wrote_cons|]. constructor; [now cbn|exact F].
Qed.
(** the loop of Update, when the old contacts lie elsewhere *)
Lemma update_wrote n : forall s x pa pb b off,
  (forall o, x_mem x = MRing b o -> o + x_count x <= off \/ x_count x = 0) ->
  wrote s (update_loop s x pa pb b off n) b off
    (map (fun i => con_update pa pb (mem_read s (x_mem x) (x_count x)) (slot s b (off + i))) (seq 0 n)).
Proof.
  induction n as [|n IH]; intros s x pa pb b off E; [apply wrote_nil|]. cbn [update_loop seq map]. rewrite Nat.add_0_r. apply wrote_cons.
  set (s1 := set_slot s b off _).
  assert (R : mem_read s1 (x_mem x) (x_count x) = mem_read s (x_mem x) (x_count x)).
  { apply read_ext. intros b' o i M Hi. unfold s1. rewrite slot_set. destruct (b' =? b) eqn:B; cbn; [|reflexivity].
    apply Nat.eqb_eq in B. subst b'. destruct (E o M) as [L|L]; [|lia]. rewrite (proj2 (Nat.eqb_neq (o + i) off)) by lia. reflexivity. }
  specialize (IH s1 x pa pb b (S off)). rewrite R in IH. rewrite <- seq_shift, map_map.
  replace (map (fun i => con_update pa pb (mem_read s (x_mem x) (x_count x)) (slot s b (off + S i))) (seq 0 n))
    with (map (fun i => con_update pa pb (mem_read s (x_mem x) (x_count x)) (slot s1 b (S off + i))) (seq 0 n)).
  - apply IH. intros o M. destruct (E o M); [left; lia|now right].
  - apply map_ext_in. intros i Hi. f_equal. unfold s1. rewrite slot_set, Nat.eqb_refl.
    rewrite (proj2 (Nat.eqb_neq (S off + i) off)) by lia. cbn. f_equal. lia.
Qed.
End Pf.
