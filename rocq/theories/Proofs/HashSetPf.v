From Coq Require Import List Arith NArith Bool Permutation Lia.
From Verif Require Import SpecHash.
From Verif.Model Require Import HashSet.
From Verif.Proofs Require Import Util.
Import ListNotations.
Local Open Scope nat_scope.

Section P.
Context {T U K : Type}.
Variable isEqual : T -> U -> bool.
Variables (kt : T -> K) (ku : U -> K) (hk : K -> N).
Hypothesis KEY : keyed isEqual kt ku.
Notation heap := (nat -> Bin U).

Fixpoint chain (h : heap) (p : option nat) (l : list nat) : Prop :=
  match l with [] => p = None | b :: l => p = Some b /\ chain h (bin_next (h b)) l end.
Lemma chain_ext h h' l : forall p, (forall b, In b l -> bin_next (h' b) = bin_next (h b)) -> chain h p l -> chain h' p l.
Proof.
  induction l as [|b l IH]; cbn; auto. intros p E (-> & C). split; auto. apply IH; [|rewrite E; auto]. intros; apply E; auto.
Qed.
Lemma upd_same {A} (h : nat -> A) p x : upd h p x p = x.
Proof. unfold upd. now rewrite Nat.eqb_refl. Qed.
Lemma upd_other {A} (h : nat -> A) p x q : q <> p -> upd h p x q = h q.
Proof. unfold upd. intros H. apply Nat.eqb_neq in H. now rewrite H. Qed.
Lemma updN_same {A} (h : N -> A) p x : updN h p x p = x.
Proof. unfold updN. now rewrite N.eqb_refl. Qed.
Lemma updN_other {A} (h : N -> A) p x q : q <> p -> updN h p x q = h q.
Proof. unfold updN. intros H. apply N.eqb_neq in H. now rewrite H. Qed.
Lemma chain_upd h b x l p : ~ In b l -> chain h p l -> chain (upd h b x) p l.
Proof. intros H. apply chain_ext. intros c Hc. rewrite upd_other; auto. intros ->; auto. Qed.

Lemma indices_In n i : In i (indices n) <-> (i < n)%N.
Proof.
  unfold indices. rewrite in_map_iff. split.
  - intros (k & <- & H). apply in_seq in H. lia.
  - intros H. exists (N.to_nat i). split; [lia|]. apply in_seq. lia.
Qed.
Lemma indices_NoDup n : NoDup (indices n).
Proof. unfold indices. apply FinFun.Injective_map_NoDup; [intros x y; lia|apply seq_NoDup]. Qed.

(** [bins f n]: all bins in the chains [f] *)
Definition bins (f : N -> list nat) (n : N) : list nat := flat_map f (indices n).
Lemma bins_In f n b : In b (bins f n) <-> exists i, (i < n)%N /\ In b (f i).
Proof. unfold bins. rewrite in_flat_map. split; intros (i & H1 & H2); exists i; rewrite ?indices_In in *; auto. Qed.
Lemma flat_map_ext_in {A B} (f g : A -> list B) l : (forall x, In x l -> f x = g x) -> flat_map f l = flat_map g l.
Proof. induction l as [|x l IH]; cbn; auto. intros H. rewrite H, IH; auto. Qed.
Lemma bins_split f n i : (i < n)%N -> exists r, Permutation (bins f n) (f i ++ r) /\
  forall l, Permutation (bins (updN f i l) n) (l ++ r).
Proof.
  intros H. apply indices_In in H. apply in_split in H as (a & b & E).
  exists (flat_map f (a ++ b)). unfold bins. rewrite E. split.
  - rewrite !flat_map_app. cbn. rewrite Permutation_app_comm, <- app_assoc. apply Permutation_app_head. apply Permutation_app_comm.
  - intros l. assert (X : forall c, ~ In i c -> flat_map (updN f i l) c = flat_map f c).
    { intros c Hc. apply flat_map_ext_in. intros j Hj. apply updN_other. intros ->; auto. }
    pose proof (indices_NoDup n) as ND. rewrite E in ND. apply NoDup_remove_2 in ND. rewrite in_app_iff in ND.
    rewrite !flat_map_app. cbn. rewrite updN_same, !X by tauto. rewrite Permutation_app_comm, <- app_assoc. apply Permutation_app_head. apply Permutation_app_comm.
Qed.

(** ** resize *)
Definition keeps (h h' : heap) : Prop := forall b, bin_elt (h' b) = bin_elt (h b) /\ bin_hash (h' b) = bin_hash (h b).
Lemma keeps_refl h : keeps h h. Proof. now intros b. Qed.
Lemma keeps_trans h1 h2 h3 : keeps h1 h2 -> keeps h2 h3 -> keeps h1 h3.
Proof. intros A B b. destruct (A b), (B b). split; congruence. Qed.
Lemma keeps_set_next h b n : keeps h (set_next h b n).
Proof. intros c. unfold set_next, upd. destruct (Nat.eqb_spec c b) as [->|]; auto. Qed.
Lemma set_next_same (h : heap) b n : bin_next (set_next h b n b) = n.
Proof. unfold set_next. now rewrite upd_same. Qed.
Lemma set_next_other (h : heap) b n c : c <> b -> bin_next (set_next h b n c) = bin_next (h c).
Proof. intros H. unfold set_next. now rewrite upd_other. Qed.
Lemma chain_set_next h b n l p : ~ In b l -> chain h p l -> chain (set_next h b n) p l.
Proof. apply chain_upd. Qed.

(** new chains [g] in table [t]; everything hangs together *)
Definition newtab (n : N) (h : heap) (t : N -> option nat) (g : N -> list nat) : Prop :=
  (forall i, chain h (t i) (g i)) /\ (forall i, (n <= i)%N -> g i = []) /\
  (forall i b, In b (g i) -> N.modulo (bin_hash (h b)) n = i) /\ NoDup (bins g n).

Lemma move_chain_ok n : (0 < n)%N -> forall r fuel p h t g,
  length r <= fuel -> chain h p r -> newtab n h t g -> NoDup (r ++ bins g n) ->
  exists h' t' g', move_chain fuel n p (h, t) = Some (h', t') /\ newtab n h' t' g' /\ keeps h h' /\
    Permutation (bins g' n) (r ++ bins g n) /\ (forall c, ~ In c (r ++ bins g n) -> bin_next (h' c) = bin_next (h c)).
Proof.
  intros Hn. induction r as [|b r IH]; intros fuel p h t g Hf Hc Hg ND; cbn in Hc.
  - subst p. exists h, t, g. destruct fuel; cbn; repeat split; auto; try apply Hg; try apply keeps_refl.
  - destruct Hc as [-> Hc]. destruct fuel as [|fuel]; cbn in Hf; [lia|]. cbn [move_chain].
    set (idx := N.modulo (bin_hash (h b)) n).
    assert (Hi : (idx < n)%N) by (apply N.mod_lt; lia).
    cbn [app] in ND. apply NoDup_cons_iff in ND as [ND1 ND2].
    assert (Hbr : ~ In b r) by (intros X; apply ND1, in_app_iff; auto).
    assert (Hbg : forall i, ~ In b (g i)).
    { intros i X. destruct Hg as (_ & G2 & _). destruct (N.lt_ge_cases i n) as [L|L]; [|rewrite G2 in X by auto; destruct X].
      apply ND1, in_app_iff. right. apply bins_In. eauto. }
    destruct (bins_split g n idx Hi) as (rest & P1 & P2).
    set (g1 := updN g idx (b :: g idx)).
    assert (P3 : Permutation (bins g1 n) (b :: bins g n)).
    { unfold g1. rewrite (P2 (b :: g idx)), P1. reflexivity. }
    assert (Hg1 : newtab n (set_next h b (t idx)) (updN t idx (Some b)) g1).
    { destruct Hg as (G1 & G2 & G3 & G4). unfold g1. split; [|split; [|split]].
      - intros i. destruct (N.eq_dec i idx) as [->|Ne].
        + rewrite !updN_same. cbn. split; auto. rewrite set_next_same. apply chain_set_next; auto.
        + rewrite !updN_other by auto. apply chain_set_next; auto.
      - intros i L. rewrite updN_other by lia. auto.
      - intros i c. destruct (N.eq_dec i idx) as [->|Ne].
        + rewrite updN_same. intros [<-|Hc2]; [|rewrite (proj2 (keeps_set_next h b (t idx) c)); auto].
          rewrite (proj2 (keeps_set_next h b (t idx) b)). reflexivity.
        + rewrite updN_other by auto. rewrite (proj2 (keeps_set_next h b (t idx) c)). auto.
      - eapply Permutation_NoDup; [symmetry; exact P3|]. constructor; auto. intros X; apply ND1, in_app_iff; auto. }
    destruct (IH fuel (bin_next (h b)) (set_next h b (t idx)) (updN t idx (Some b)) g1) as (h' & t' & g' & E & N1 & N2 & N3 & N4).
    + lia.
    + apply chain_set_next; auto.
    + exact Hg1.
    + eapply Permutation_NoDup; [|exact (NoDup_cons b ND1 ND2)]. rewrite P3. apply Permutation_middle.
    + exists h', t', g'. split; [exact E|]. split; [exact N1|]. split; [eapply keeps_trans; [apply keeps_set_next|exact N2]|]. split.
      * rewrite N3, P3. cbn [app]. symmetry. apply Permutation_middle.
      * intros c Hc2. rewrite N4.
        -- unfold set_next. rewrite upd_other; auto. intros ->. apply Hc2. cbn; auto.
        -- intros X. apply Hc2. cbn [app]. rewrite in_app_iff in X. destruct X as [X|X]; [right; apply in_app_iff; auto|].
           apply (Permutation_in _ P3) in X. destruct X as [->|X]; [left; auto|right; apply in_app_iff; auto].
Qed.
Lemma move_all_ok n fuel old f : (0 < n)%N -> forall is h t g,
  (forall i, In i is -> length (f i) <= fuel) -> (forall i, In i is -> chain h (old i) (f i)) -> newtab n h t g ->
  NoDup (flat_map f is ++ bins g n) ->
  exists h' t' g', move_all fuel n old is (h, t) = Some (h', t') /\ newtab n h' t' g' /\ keeps h h' /\
    Permutation (bins g' n) (flat_map f is ++ bins g n) /\ (forall c, ~ In c (flat_map f is ++ bins g n) -> bin_next (h' c) = bin_next (h c)).
Proof.
  intros Hn. induction is as [|i is IH]; intros h t g Hf Hc Hg ND; cbn [move_all flat_map].
  - exists h, t, g. split; [reflexivity|]. split; auto. split; [apply keeps_refl|]. split; auto.
  - cbn [flat_map] in ND. rewrite <- app_assoc in ND.
    assert (ND1 : NoDup (f i ++ bins g n)).
    { apply nodup_app_iff in ND as (A & B & C). apply nodup_app_iff in B as (B1 & B2 & B3). apply nodup_app_iff. split; auto. split; auto.
      intros x X1 X2. apply (C x X1). apply in_app_iff; auto. }
    destruct (move_chain_ok n Hn (f i) fuel (old i) h t g) as (h1 & t1 & g1 & E1 & A1 & A2 & A3 & A4); [apply Hf; cbn; auto|apply Hc; cbn; auto|auto|auto|].
    rewrite E1.
    destruct (IH h1 t1 g1) as (h2 & t2 & g2 & E2 & B1 & B2 & B3 & B4); auto.
    { intros j Hj. apply Hf; cbn; auto. }
    { intros j Hj. eapply chain_ext; [|apply Hc; cbn; auto]. intros c Hcj. apply A4. intros X.
      apply nodup_app_iff in ND as (_ & D2 & D3). apply nodup_app_iff in D2 as (_ & _ & D4).
      assert (Y : In c (flat_map f is)) by (apply in_flat_map; eauto). apply in_app_iff in X as [X|X].
      - apply (D3 c X). apply in_app_iff; auto.
      - exact (D4 c Y X). }
    { eapply Permutation_NoDup; [|exact ND]. rewrite A3. rewrite !app_assoc. apply Permutation_app_tail, Permutation_app_comm. }
    exists h2, t2, g2. split; [exact E2|]. split; auto. split; [eapply keeps_trans; eauto|]. split.
    + rewrite B3, A3. rewrite !app_assoc. apply Permutation_app_tail, Permutation_app_comm.
    + intros c X. rewrite B4, A4; auto.
      * intros Y. apply X. rewrite <- app_assoc. rewrite !in_app_iff in *. tauto.
      * intros Y. apply X. rewrite <- app_assoc. rewrite !in_app_iff in *. destruct Y as [Y|Y]; [tauto|]. apply (Permutation_in _ A3) in Y. apply in_app_iff in Y. tauto.
Qed.

(** ** the invariant *)
Definition good_sizes : list N := removelast primes.
Record Inv (s : HSet U) (L : list U) (f : N -> list nat) (P : list nat) : Prop := {
  i_size : In (hs_size s) good_sizes;
  i_chain : forall i, chain (hs_heap s) (hs_table s i) (f i);
  i_out : forall i, (hs_size s <= i)%N -> f i = [];
  i_pool : chain (hs_heap s) (hs_pooled s) P;
  i_nodup : NoDup (bins f (hs_size s) ++ P);
  i_fresh : forall b, In b (bins f (hs_size s) ++ P) -> b < hs_fresh s;
  i_bin : forall i b, In b (f i) -> exists e, bin_elt (hs_heap s b) = Some e /\ bin_hash (hs_heap s b) = hk (ku e) /\ N.modulo (hk (ku e)) (hs_size s) = i;
  i_elts : Permutation (map Some L) (map (fun b => bin_elt (hs_heap s b)) (bins f (hs_size s)));
  i_keys : NoDup (map ku L);
  i_entries : hs_entries s = N.of_nat (length L);
  i_room : (hs_entries s < hs_size s)%N
}.
Lemma good_pos n : In n good_sizes -> (0 < n)%N.
Proof. cbn. intros H. repeat (destruct H as [<-|H]; [lia|]). destruct H. Qed.
Lemma good_next n : In n good_sizes -> (n < 1610612741)%N -> exists m, next_prime (n + 1) = Some m /\ In m good_sizes /\ (n < m)%N.
Proof.
  intros H. unfold good_sizes, primes in H. cbn [removelast] in H.
  repeat (destruct H as [<-|H]; [intros _; eexists; split; [reflexivity|]; split; [cbn; tauto|lia] || (intros X; lia)|]). destruct H.
Qed.
Lemma good_le n : In n good_sizes -> (n <= 1610612741)%N.
Proof. cbn. intros H. repeat (destruct H as [<-|H]; [lia|]). destruct H. Qed.

Lemma inv_new : Inv hs_new [] (fun _ => []) [].
Proof.
  assert (B : bins (fun _ => []) 5 = []) by reflexivity.
  constructor; cbn [hs_new hs_size hs_heap hs_table hs_pooled hs_entries hs_fresh]; rewrite ?B; cbn; auto; try constructor; try tauto; try lia.
Qed.
Lemma chain_len (fr : nat) l : NoDup l -> (forall b, In b l -> b < fr) -> length l <= fr.
Proof.
  intros ND H. rewrite <- (seq_length fr 0). apply NoDup_incl_length; auto. intros b Hb. apply in_seq. specialize (H b Hb). lia.
Qed.
Lemma inv_chain_nodup s L f P i : Inv s L f P -> NoDup (f i) /\ (forall b, In b (f i) -> b < hs_fresh s) /\ (forall b, In b (f i) -> ~ In b P) /\
  ((i < hs_size s)%N -> forall b, In b (f i) -> In b (bins f (hs_size s))).
Proof.
  intros I. destruct (N.lt_ge_cases i (hs_size s)) as [L1|L1].
  - destruct (bins_split f (hs_size s) i L1) as (r & P1 & _). pose proof (i_nodup _ _ _ _ I) as ND. apply nodup_app_iff in ND as (A & B & C).
    pose proof (Permutation_NoDup P1 A) as D. apply nodup_app_iff in D as (D1 & _ & _).
    assert (X : forall b, In b (f i) -> In b (bins f (hs_size s))) by (intros b Hb; apply bins_In; eauto).
    split; auto. split; [intros b Hb; apply (i_fresh _ _ _ _ I), in_app_iff; auto|]. split; auto.
  - rewrite (i_out _ _ _ _ I) by auto. repeat split; try constructor; cbn; tauto.
Qed.
Lemma inv_mem s L f P e : Inv s L f P -> In e L <-> exists b, In b (bins f (hs_size s)) /\ bin_elt (hs_heap s b) = Some e.
Proof.
  intros I. pose proof (i_elts _ _ _ _ I) as E. split.
  - intros H. assert (X : In (Some e) (map Some L)) by now apply in_map. apply (Permutation_in _ E) in X. apply in_map_iff in X as (b & X1 & X2). eauto.
  - intros (b & H1 & H2). assert (X : In (Some e) (map (fun b => bin_elt (hs_heap s b)) (bins f (hs_size s)))) by (rewrite <- H2; now apply in_map with (f := fun b => bin_elt (hs_heap s b))).
    apply (Permutation_in _ (Permutation_sym E)) in X. apply in_map_iff in X as (e' & X1 & X2). congruence.
Qed.
Lemma find_unique L p e : NoDup (map ku L) -> In e L -> isEqual p e = true -> find (isEqual p) L = Some e.
Proof.
  intros ND Hin He. induction L as [|x L IH]; [destruct Hin|]. cbn in *. apply NoDup_cons_iff in ND as [N1 N2].
  destruct (isEqual p x) eqn:Ex.
  - destruct Hin as [->|Hin]; auto. apply KEY in Ex, He. exfalso. apply N1. rewrite <- Ex, He. now apply in_map.
  - destruct Hin as [->|Hin]; [congruence|auto].
Qed.

(** the search *)
Fixpoint upto (p : nat -> bool) (l : list nat) : list nat * option nat * list nat :=
  match l with [] => ([], None, []) | b :: l' => if p b then ([], Some b, l') else let '(x, y, z) := upto p l' in (b :: x, y, z) end.
Lemma search_ok h ptr : forall l fuel prev p, chain h p l -> length l <= fuel ->
  exists a, (search isEqual fuel h ptr prev p = Some (match rev a with [] => prev | c :: _ => inr c end, None) /\ l = a /\ forall c, In c a -> matches isEqual h c ptr = false) \/
  exists b r, search isEqual fuel h ptr prev p = Some (match rev a with [] => prev | c :: _ => inr c end, Some b) /\ l = a ++ b :: r /\ matches isEqual h b ptr = true /\ (forall c, In c a -> matches isEqual h c ptr = false).
Proof.
  induction l as [|b l IH]; intros fuel prev p C Hf; cbn in C.
  - subst p. exists []. left. destruct fuel; cbn; repeat split; auto; try tauto.
  - destruct C as [-> C]. destruct fuel as [|fuel]; cbn in Hf; [lia|]. cbn [search]. destruct (matches isEqual h b ptr) eqn:M.
    + exists []. right. exists b, l. cbn. repeat split; auto; tauto.
    + destruct (IH fuel (inr b) _ C ltac:(lia)) as (a & [(E & Ea & Hn)|(b' & r & E & El & Hb & Hn)]).
      * exists (b :: a). left. rewrite E. cbn [rev]. split; [|split; [now f_equal|intros c [<-|Hc]; auto]].
        destruct (rev a) eqn:R; cbn; auto.
      * exists (b :: a). right. exists b', r. rewrite E. cbn [rev]. split; [|split; [now rewrite El|split; auto; intros c [<-|Hc]; auto]].
        destruct (rev a) eqn:R; cbn; auto.
Qed.
Lemma search_absent s L f P p : Inv s L f P -> let idx := N.modulo (hk (kt p)) (hs_size s) in
  (forall b, In b (f idx) -> matches isEqual (hs_heap s) b p = false) -> find (isEqual p) L = None.
Proof.
  intros I idx H. destruct (find (isEqual p) L) as [e|] eqn:F; auto. apply find_some in F as [F1 F2].
  apply (inv_mem _ _ _ _ e I) in F1 as (b & B1 & B2). apply bins_In in B1 as (i & Li & Hb).
  destruct (i_bin _ _ _ _ I _ _ Hb) as (e' & E1 & E2 & E3). rewrite B2 in E1. injection E1 as <-.
  assert (i = idx) as ->. { rewrite <- E3. unfold idx. apply KEY in F2. now rewrite F2. }
  specialize (H b Hb). unfold matches in H. rewrite B2 in H. congruence.
Qed.
Lemma search_present s L f P p b : Inv s L f P -> In b (bins f (hs_size s)) -> matches isEqual (hs_heap s) b p = true ->
  exists e, bin_elt (hs_heap s b) = Some e /\ In e L /\ isEqual p e = true /\ find (isEqual p) L = Some e.
Proof.
  intros I Hb M. unfold matches in M. destruct (bin_elt (hs_heap s b)) as [e|] eqn:E; [|discriminate].
  exists e. assert (In e L) by (apply (inv_mem _ _ _ _ e I); eauto). repeat split; auto. apply find_unique; auto. apply (i_keys _ _ _ _ I).
Qed.
Lemma idx_lt s L f P x : Inv s L f P -> (N.modulo x (hs_size s) < hs_size s)%N.
Proof. intros I. apply N.mod_lt. pose proof (good_pos _ (i_size _ _ _ _ I)). lia. Qed.

Lemma find_ok s L f P p : Inv s L f P -> hs_find isEqual s (hk (kt p)) p = Some (find (isEqual p) L).
Proof.
  intros I. unfold hs_find. set (idx := N.modulo (hk (kt p)) (hs_size s)). pose proof (idx_lt _ _ _ _ (hk (kt p)) I) as HL. fold idx in HL.
  destruct (inv_chain_nodup _ _ _ _ idx I) as (C1 & C2 & _ & C4).
  destruct (search_ok (hs_heap s) p (f idx) (hs_fresh s) (inl idx) (hs_table s idx) (i_chain _ _ _ _ I idx) (chain_len _ _ C1 C2)) as (a & [(E & Ea & Hn)|(b & r & E & El & Hb & Hn)]); rewrite E.
  - f_equal. symmetry. eapply search_absent; eauto. fold idx. now rewrite Ea.
  - destruct (search_present _ _ _ _ p b I) as (e & X1 & X2 & X3 & X4); auto. { apply C4; auto. rewrite El, in_app_iff; cbn; auto. } congruence.
Qed.

(** ** getUnusedBin *)
Lemma inv_ext s s' L f P P' : Inv s L f P -> hs_size s' = hs_size s -> hs_entries s' = hs_entries s -> hs_table s' = hs_table s ->
  (forall b, In b (bins f (hs_size s)) -> hs_heap s' b = hs_heap s b) ->
  chain (hs_heap s') (hs_pooled s') P' -> NoDup (bins f (hs_size s) ++ P') -> (forall b, In b (bins f (hs_size s) ++ P') -> b < hs_fresh s') ->
  Inv s' L f P'.
Proof.
  intros I E1 E2 E3 E4 C ND FR.
  assert (Hb : forall i b, In b (f i) -> In b (bins f (hs_size s))).
  { intros i b Hb. destruct (N.lt_ge_cases i (hs_size s)) as [L1|L1]; [apply bins_In; eauto|rewrite (i_out _ _ _ _ I) in Hb by auto; destruct Hb]. }
  constructor; rewrite ?E1, ?E2, ?E3; auto; try apply I.
  - intros i. eapply chain_ext; [|apply I]. intros b X. rewrite E4; auto. eauto.
  - intros i b X. rewrite E4 by eauto. apply I; auto.
  - rewrite (i_elts _ _ _ _ I). erewrite map_ext_in; [reflexivity|]. intros b X. cbn. now rewrite E4.
Qed.
Lemma recycle_inv s L f P b : Inv s L f P -> ~ In b (bins f (hs_size s) ++ P) -> b < hs_fresh s -> Inv (recycle s b) L f (b :: P).
Proof.
  intros I H1 H2. eapply inv_ext; [exact I|..]; try reflexivity.
  - intros c Hc. cbn. apply upd_other. intros ->. apply H1, in_app_iff; auto.
  - cbn. split; auto. rewrite upd_same. cbn. apply chain_upd; [|apply I]. intros X; apply H1, in_app_iff; auto.
  - eapply Permutation_NoDup; [apply Permutation_middle|]. constructor; auto. apply I.
  - intros c X. apply (Permutation_in _ (Permutation_sym (Permutation_middle _ _ _))) in X. cbn. destruct X as [<-|X]; auto. now apply (i_fresh _ _ _ _ I).
Qed.
Lemma alloc_inv s L f P : Inv s L f P -> Inv (snd (alloc s)) L f P /\ fst (alloc s) = hs_fresh s /\ ~ In (hs_fresh s) (bins f (hs_size s) ++ P) /\ hs_fresh (snd (alloc s)) = S (hs_fresh s)
  /\ hs_table (snd (alloc s)) = hs_table s /\ hs_size (snd (alloc s)) = hs_size s.
Proof.
  intros I. assert (NI : ~ In (hs_fresh s) (bins f (hs_size s) ++ P)) by (intros X; apply (i_fresh _ _ _ _ I) in X; lia).
  split; [|cbn; auto]. eapply inv_ext; [exact I|..]; try reflexivity.
  - intros c Hc. cbn. apply upd_other. intros ->. apply NI, in_app_iff; auto.
  - cbn. apply chain_upd; [|apply I]. intros X; apply NI, in_app_iff; auto.
  - apply I.
  - intros c X. cbn. apply (i_fresh _ _ _ _ I) in X. lia.
Qed.
Lemma refill_inv k : forall s L f P, Inv s L f P -> exists P', Inv (refill k s) L f P' /\ hs_size (refill k s) = hs_size s /\ hs_table (refill k s) = hs_table s.
Proof.
  induction k as [|k IH]; intros s L f P I; cbn [refill]; [eauto|].
  destruct (alloc_inv _ _ _ _ I) as (A & B & C & D & E1 & E2). destruct (alloc s) as [b s1] eqn:E. cbn [fst snd] in *. subst b.
  assert (I2 : Inv (recycle s1 (hs_fresh s)) L f (hs_fresh s :: P)) by (apply recycle_inv; auto; [now rewrite E2|lia]).
  destruct (IH _ _ _ _ I2) as (P' & X1 & X2 & X3). exists P'. split; auto. split; [now rewrite X2|now rewrite X3].
Qed.
Lemma get_unused_ok s L f P : Inv s L f P -> let '(b, s') := get_unused s in exists P', Inv s' L f P' /\ ~ In b (bins f (hs_size s) ++ P') /\ b < hs_fresh s' /\
  hs_size s' = hs_size s /\ hs_table s' = hs_table s.
Proof.
  intros I. unfold get_unused. destruct (hs_pooled s) as [b|] eqn:E.
  - destruct P as [|b' P]; [pose proof (i_pool _ _ _ _ I) as X; cbn in X; congruence|].
    pose proof (i_pool _ _ _ _ I) as X. cbn in X. rewrite E in X. destruct X as [X X2]. injection X as <-. exists P.
    pose proof (i_nodup _ _ _ _ I) as ND. apply (Permutation_NoDup (Permutation_sym (Permutation_middle _ _ _))) in ND. apply NoDup_cons_iff in ND as [N1 N2].
    split; [|split; [exact N1|split; auto]].
    + eapply inv_ext; [exact I|..]; try reflexivity; auto. intros c Hc. cbn. apply (i_fresh _ _ _ _ I). rewrite in_app_iff in *. cbn. tauto.
    + cbn. apply (i_fresh _ _ _ _ I). rewrite in_app_iff. cbn; auto.
  - destruct (refill_inv POOLED_BUFFER_SIZE _ _ _ _ I) as (P' & I' & E1 & E2).
    destruct (alloc_inv _ _ _ _ I') as (A & B & C & D & E3 & E4). set (s1 := refill POOLED_BUFFER_SIZE s) in *. clearbody s1.
    destruct (alloc s1) as [b s2] eqn:Ea. cbn [fst snd] in *. subst b. exists P'. split; [exact A|]. split; [now rewrite <- E1|]. split; [lia|]. split; congruence.
Qed.

(** ** Insert *)
Lemma push_inv s L f P b e : Inv s L f P -> ~ In b (bins f (hs_size s) ++ P) -> b < hs_fresh s -> ~ In (ku e) (map ku L) ->
  let idx := N.modulo (hk (ku e)) (hs_size s) in
  let s' := mkHS (hs_entries s + 1) (hs_size s) (updN (hs_table s) idx (Some b)) (hs_pooled s)
                 (upd (hs_heap s) b (mkBin (Some e) (hk (ku e)) (hs_table s idx))) (hs_fresh s) in
  (hs_entries s + 1 < hs_size s)%N -> Inv s' (e :: L) (updN f idx (b :: f idx)) P.
Proof.
  intros I Hb Hfr Hk idx s' Hroom. assert (HL : (idx < hs_size s)%N) by (eapply idx_lt; eauto).
  destruct (bins_split f (hs_size s) idx HL) as (r & P1 & P2).
  assert (P3 : Permutation (bins (updN f idx (b :: f idx)) (hs_size s)) (b :: bins f (hs_size s))) by (rewrite (P2 (b :: f idx)), P1; reflexivity).
  assert (Hbf : forall i, ~ In b (f i)).
  { intros i X. destruct (N.lt_ge_cases i (hs_size s)) as [L1|L1]; [|rewrite (i_out _ _ _ _ I) in X by auto; destruct X]. apply Hb, in_app_iff. left. apply bins_In. eauto. }
  unfold s'. constructor; cbn [hs_size hs_heap hs_table hs_pooled hs_entries hs_fresh].
  - apply I.
  - intros i. destruct (N.eq_dec i idx) as [->|Ne].
    + rewrite !updN_same. cbn. split; auto. rewrite upd_same. cbn. apply chain_upd; auto. apply I.
    + rewrite !updN_other by auto. apply chain_upd; auto. apply I.
  - intros i Hi. rewrite updN_other by lia. now apply I.
  - apply chain_upd; [|apply I]. intros X. apply Hb, in_app_iff; auto.
  - eapply Permutation_NoDup; [apply Permutation_app_tail; symmetry; exact P3|]. cbn. constructor; auto. apply I.
  - intros c X. rewrite in_app_iff in X. assert (c = b \/ In c (bins f (hs_size s) ++ P)) as [->|Y]; auto; [|now apply (i_fresh _ _ _ _ I)].
    rewrite in_app_iff. destruct X as [X|X]; auto. apply (Permutation_in _ P3) in X. destruct X; auto.
  - intros i c X. destruct (N.eq_dec i idx) as [->|Ne].
    + rewrite updN_same in X. destruct X as [<-|X]; [rewrite upd_same; cbn; eauto|]. rewrite upd_other by (intros ->; eapply Hbf; eauto). now apply I.
    + rewrite updN_other in X by auto. rewrite upd_other by (intros ->; eapply Hbf; eauto). now apply I.
  - rewrite (Permutation_map _ P3). cbn. rewrite upd_same. cbn. constructor. rewrite (i_elts _ _ _ _ I). erewrite map_ext_in; [reflexivity|].
    intros c Hc. cbn. rewrite upd_other; auto. intros ->. apply Hb, in_app_iff; auto.
  - cbn. constructor; auto. apply I.
  - rewrite (i_entries _ _ _ _ I). cbn [length]. lia.
  - exact Hroom.
Qed.
(** the same without room: what resize repairs *)
Lemma resize_ok s L f P :
  In (hs_size s) good_sizes -> (hs_size s < 1610612741)%N ->
  (forall i, chain (hs_heap s) (hs_table s i) (f i)) -> (forall i, (hs_size s <= i)%N -> f i = []) -> chain (hs_heap s) (hs_pooled s) P ->
  NoDup (bins f (hs_size s) ++ P) -> (forall b, In b (bins f (hs_size s) ++ P) -> b < hs_fresh s) ->
  (forall i b, In b (f i) -> exists e, bin_elt (hs_heap s b) = Some e /\ bin_hash (hs_heap s b) = hk (ku e)) ->
  Permutation (map Some L) (map (fun b => bin_elt (hs_heap s b)) (bins f (hs_size s))) -> NoDup (map ku L) ->
  hs_entries s = N.of_nat (length L) -> (hs_entries s <= hs_size s)%N ->
  exists s' f', resize s = Some s' /\ Inv s' L f' P.
Proof.
  intros Hg Hlt Hc Ho Hp ND FR Hb He Hk Hn Hr. destruct (good_next _ Hg Hlt) as (m & E & Hm & Hlm).
  unfold resize. rewrite E. apply nodup_app_iff in ND as (D1 & D2 & D3).
  assert (Hin : forall i b, In b (f i) -> In b (bins f (hs_size s))).
  { intros i b X. destruct (N.lt_ge_cases i (hs_size s)) as [L1|L1]; [apply bins_In; eauto|rewrite Ho in X by auto; destruct X]. }
  assert (B0 : bins (fun _ => []) m = []) by (unfold bins; apply flat_map_nil; auto).
  destruct (move_all_ok m (hs_fresh s) (hs_table s) f (good_pos _ Hm) (indices (hs_size s)) (hs_heap s) (fun _ => None) (fun _ => [])) as (h' & t' & g & E2 & (G1 & G2 & G3 & G4) & G5 & G6 & G7).
  - intros i Hi. apply indices_In in Hi. apply chain_len; [|intros b X; apply FR, in_app_iff; left; eauto].
    destruct (bins_split f (hs_size s) i Hi) as (r & P1 & _). eapply nodup_app_l, Permutation_NoDup; [exact P1|exact D1].
  - auto.
  - split; [now cbn|]. split; auto. split; [cbn; tauto|]. rewrite B0. constructor.
  - rewrite B0, app_nil_r. exact D1.
  - rewrite E2. rewrite B0, app_nil_r in *. change (flat_map f (indices (hs_size s))) with (bins f (hs_size s)) in *. eexists. exists g. split; [reflexivity|].
    assert (Hgb : forall i b, In b (g i) -> exists j, In b (f j)).
    { intros i b X. destruct (N.lt_ge_cases i m) as [L1|L1]; [|rewrite G2 in X by auto; destruct X].
      assert (Y : In b (bins g m)) by (apply bins_In; eauto). apply (Permutation_in _ G6) in Y. apply bins_In in Y as (j & _ & Y). eauto. }
    constructor; cbn [hs_size hs_heap hs_table hs_pooled hs_entries hs_fresh]; auto.
    + eapply chain_ext; [|exact Hp]. intros b X. apply G7. intros Y. exact (D3 b Y X).
    + eapply Permutation_NoDup; [apply Permutation_app_tail; symmetry; exact G6|]. apply nodup_app_iff; auto.
    + intros b X. apply FR. rewrite in_app_iff in *. destruct X as [X|X]; auto. left. now apply (Permutation_in _ G6).
    + intros i b X. destruct (Hgb i b X) as (j & Y). destruct (Hb j b Y) as (e & Y1 & Y2). exists e. destruct (G5 b) as [K1 K2]. rewrite K1, K2. repeat split; auto.
      rewrite <- Y2, <- K2. apply G3; auto.
    + rewrite He. rewrite (Permutation_map _ G6). erewrite map_ext; [reflexivity|]. intros b. cbn. symmetry. apply G5.
    + lia.
Qed.
Lemma absent_key L p : find (isEqual p) L = None -> ~ In (kt p) (map ku L).
Proof.
  intros H X. apply in_map_iff in X as (e & E & Hin). apply (find_none _ _ H) in Hin. assert (isEqual p e = true) by (apply KEY; auto). congruence.
Qed.
Lemma insert_ok s L f P p tr : Inv s L f P -> ku (tr p) = kt p -> (find (isEqual p) L = None -> (N.of_nat (length L) + 1 < 1610612741)%N) ->
  exists s' f' P', match find (isEqual p) L with
  | Some e => hs_insert isEqual s (hk (kt p)) p tr = Some (e, s') /\ Inv s' L f' P'
  | None => hs_insert isEqual s (hk (kt p)) p tr = Some (tr p, s') /\ Inv s' (tr p :: L) f' P'
  end.
Proof.
  intros I Htr Hcap. unfold hs_insert. set (idx := N.modulo (hk (kt p)) (hs_size s)). pose proof (idx_lt _ _ _ _ (hk (kt p)) I) as HL. fold idx in HL.
  destruct (inv_chain_nodup _ _ _ _ idx I) as (C1 & C2 & _ & C4).
  destruct (search_ok (hs_heap s) p (f idx) (hs_fresh s) (inl idx) (hs_table s idx) (i_chain _ _ _ _ I idx) (chain_len _ _ C1 C2)) as (a & [(E & Ea & Hn)|(b & r & E & El & Hb & Hn)]); rewrite E.
  - assert (F : find (isEqual p) L = None) by (eapply search_absent; eauto; fold idx; now rewrite Ea). specialize (Hcap F). rewrite F.
    pose proof (get_unused_ok _ _ _ _ I) as G. destruct (get_unused s) as [b s1]. destruct G as (P' & I1 & Nb & Fb & S1 & T1).
    assert (Ke : hk (kt p) = hk (ku (tr p))) by now rewrite Htr. assert (Ei : idx = N.modulo (hk (ku (tr p))) (hs_size s1)) by (unfold idx; now rewrite Ke, S1).
    assert (Nk : ~ In (ku (tr p)) (map ku L)) by (rewrite Htr; now apply absent_key). rewrite <- S1 in Nb.
    pose proof (i_room _ _ _ _ I1) as Hroom. pose proof (i_entries _ _ _ _ I1) as Hent.
    cbn [hs_size hs_entries]. destruct (N.leb_spec (hs_size s1) (hs_entries s1 + 1)) as [Le|Gt].
    + (* resize *)
      assert (HLs : (hs_size s1 < 1610612741)%N) by lia.

      destruct (bins_split f (hs_size s1) idx ltac:(lia)) as (r & P1 & P2).
      assert (P3 : Permutation (bins (updN f idx (b :: f idx)) (hs_size s1)) (b :: bins f (hs_size s1))) by (rewrite (P2 (b :: f idx)), P1; reflexivity).
      assert (Hbf : forall i, ~ In b (f i)).
      { intros i X. destruct (N.lt_ge_cases i (hs_size s1)) as [L1|L1]; [|rewrite (i_out _ _ _ _ I1) in X by auto; destruct X]. apply Nb, in_app_iff. left. apply bins_In. eauto. }
      match goal with |- context [resize ?x] => destruct (resize_ok x (tr p :: L) (updN f idx (b :: f idx)) P') as (s' & f' & R1 & R2) end;
        cbn [hs_size hs_heap hs_table hs_pooled hs_entries hs_fresh]; auto; try apply I1.
      * intros i. destruct (N.eq_dec i idx) as [->|Ne].
        -- rewrite !updN_same. cbn. split; auto. rewrite upd_same. cbn. apply chain_upd; auto. apply I1.
        -- rewrite !updN_other by auto. apply chain_upd; auto. apply I1.
      * intros i Hi. rewrite updN_other by lia. now apply I1.
      * apply chain_upd; [|apply I1]. intros X. apply Nb, in_app_iff; auto.
      * eapply Permutation_NoDup; [apply Permutation_app_tail; symmetry; exact P3|]. cbn. constructor; auto. apply I1.
      * intros c X. rewrite in_app_iff in X. assert (c = b \/ In c (bins f (hs_size s1) ++ P')) as [->|Y]; auto; [|now apply (i_fresh _ _ _ _ I1)].
        rewrite in_app_iff. destruct X as [X|X]; auto. apply (Permutation_in _ P3) in X. destruct X; auto.
      * intros i c X. destruct (N.eq_dec i idx) as [->|Ne].
        -- rewrite updN_same in X. destruct X as [<-|X]; [rewrite upd_same; cbn; exists (tr p); split; auto|]. rewrite upd_other by (intros ->; eapply Hbf; eauto). apply I1 in X as (e & ? & ? & ?). eauto.
        -- rewrite updN_other in X by auto. rewrite upd_other by (intros ->; eapply Hbf; eauto). apply I1 in X as (e & ? & ? & ?). eauto.
      * rewrite (Permutation_map _ P3). cbn. rewrite upd_same. cbn. constructor. rewrite (i_elts _ _ _ _ I1). erewrite map_ext_in; [reflexivity|].
        intros c Hc. cbn. rewrite upd_other; auto. intros ->. apply Nb, in_app_iff; auto.
      * cbn. constructor; auto. apply I1.
      * cbn [length]. lia.
      * lia.
      * exists s', f', P'. rewrite R1. auto.
    + eexists _, (updN f idx (b :: f idx)), P'. split; [reflexivity|]. clearbody idx. rewrite Ke. rewrite Ei. apply push_inv with (f := f); auto.
  - destruct (search_present _ _ _ _ p b I) as (e & X1 & X2 & X3 & X4); auto. { apply C4; auto. rewrite El, in_app_iff; cbn; auto. }
    rewrite X4. exists s, f, P. rewrite X1. auto.
Qed.

(** ** Remove and Filter *)
(** [cut]: unlink bin [b] of chain [f i] = a ++ b :: r and recycle it *)
Definition prev_of (i : N) (a : list nat) : N + nat := match rev a with [] => inl i | c :: _ => inr c end.
Lemma chain_cut h i (t : N -> option nat) b r : forall a, NoDup (a ++ b :: r) -> chain h (t i) (a ++ b :: r) ->
  match prev_of i a with
  | inl _ => a = [] /\ chain h (bin_next (h b)) r
  | inr c => In c a /\ chain (set_next h c (bin_next (h b))) (t i) (a ++ r)
  end.
Proof.
  intros a ND C. unfold prev_of. destruct a as [|c0 a0] using rev_ind; [cbn in *; tauto|]. clear IHa0. rewrite rev_app_distr. cbn.
  split; [rewrite in_app_iff; cbn; auto|]. rewrite <- app_assoc in *. cbn [app] in *. set (p := t i) in *. clearbody p. revert p C. induction a0 as [|d a1 IH]; intros p C; cbn in *.
  - destruct C as (-> & C1 & C2). split; auto. rewrite set_next_same. apply chain_set_next; auto.
    apply NoDup_cons_iff in ND as [X _]. intros Y; apply X; cbn; auto.
  - destruct C as [-> C]. split; auto. apply NoDup_cons_iff in ND as [X ND]. rewrite set_next_other.
    + apply IH; auto.
    + intros ->. apply X. rewrite in_app_iff. cbn; auto.
Qed.
Lemma cut_inv s L f P i a b r e : Inv s L f P -> f i = a ++ b :: r -> bin_elt (hs_heap s b) = Some e ->
  let s1 := store s (prev_of i a) (bin_next (hs_heap s b)) in
  let s2 := recycle (set_entries s1 (hs_entries s1 - 1)) b in
  exists L', Permutation L (e :: L') /\ Inv s2 L' (updN f i (a ++ r)) (b :: P) /\ hs_size s2 = hs_size s /\ hs_fresh s2 = hs_fresh s /\
  (forall j, j <> i -> hs_table s2 j = hs_table s j) /\
  (forall c, c <> b -> bin_elt (hs_heap s2 c) = bin_elt (hs_heap s c)) /\ (forall c, c <> b -> ~ In c a -> hs_heap s2 c = hs_heap s c).
Proof.
  intros I Ef Eb s1 s2.
  assert (HL : (i < hs_size s)%N). { destruct (N.lt_ge_cases i (hs_size s)); auto. rewrite (i_out _ _ _ _ I) in Ef by auto. destruct a; discriminate. }
  destruct (bins_split f (hs_size s) i HL) as (rest & P1 & P2). rewrite Ef in P1.
  assert (P3 : Permutation (bins f (hs_size s)) (b :: bins (updN f i (a ++ r)) (hs_size s))).
  { rewrite (P2 (a ++ r)), P1. rewrite <- !app_assoc. cbn [app]. symmetry. apply Permutation_middle. }
  pose proof (i_nodup _ _ _ _ I) as ND. apply nodup_app_iff in ND as (D1 & D2 & D3).
  pose proof (Permutation_NoDup P3 D1) as D4. apply NoDup_cons_iff in D4 as [D5 D6].
  assert (Hbb : In b (bins f (hs_size s))) by (apply bins_In; exists i; rewrite Ef, in_app_iff; cbn; auto).
  destruct (inv_chain_nodup _ _ _ _ i I) as (N1 & N2 & N3 & N4). rewrite Ef in N1.
  pose proof (i_chain _ _ _ _ I i) as C. rewrite Ef in C. pose proof (chain_cut _ _ _ _ _ a N1 C) as CC.
  assert (EL : exists L', Permutation L (e :: L')).
  { assert (X : In e L) by (apply (inv_mem _ _ _ _ e I); eauto). apply in_split in X as (u & v & ->). exists (u ++ v). symmetry. apply Permutation_middle. }
  destruct EL as (L' & EL). exists L'. split; auto.
  assert (Z1 : hs_size s1 = hs_size s) by (unfold s1, store; destruct (prev_of i a); reflexivity).
  assert (Z2 : hs_fresh s1 = hs_fresh s) by (unfold s1, store; destruct (prev_of i a); reflexivity).
  assert (Z3 : hs_entries s1 = hs_entries s) by (unfold s1, store; destruct (prev_of i a); reflexivity).
  assert (Z4 : hs_pooled s1 = hs_pooled s) by (unfold s1, store; destruct (prev_of i a); reflexivity).
  assert (Z5 : forall j, j <> i -> hs_table s1 j = hs_table s j).
  { intros j Hj. unfold s1, store, prev_of. destruct (rev a); cbn; auto. now apply updN_other. }
  assert (Z6 : keeps (hs_heap s) (hs_heap s1)) by (unfold s1, store; destruct (prev_of i a); [apply keeps_refl|apply keeps_set_next]).
  assert (Z7 : forall c, ~ In c a -> hs_heap s1 c = hs_heap s c).
  { intros c Hc. unfold s1, store. destruct (prev_of i a) as [q|q] eqn:Q; auto. unfold prev_of in Q. destruct (rev a) eqn:R; [discriminate|]. injection Q as <-.
    cbn. unfold set_next. apply upd_other. intros ->. apply Hc, in_rev. rewrite R. cbn; auto. }
  assert (Z8 : chain (hs_heap s1) (hs_table s1 i) (a ++ r)).
  { unfold s1, store. unfold prev_of in *. destruct (rev a) as [|c l] eqn:R; cbn.
    - destruct CC as [-> CC]. cbn. now rewrite updN_same.
    - tauto. }
  assert (Hba : ~ In b a /\ ~ In b r).
  { apply NoDup_remove_2 in N1. rewrite in_app_iff in N1. tauto. }
  assert (Hfj : forall j c, j <> i -> In c (f j) -> ~ In c (a ++ b :: r)).
  { intros j c Hj Hc X. assert (Y : In c rest).
    { assert (W : In c (bins (updN f i []) (hs_size s))).
      { apply bins_In. exists j. split; [|now rewrite updN_other]. destruct (N.lt_ge_cases j (hs_size s)); auto. rewrite (i_out _ _ _ _ I) in Hc by auto. destruct Hc. }
      exact (Permutation_in _ (P2 []) W). }
    pose proof (Permutation_NoDup P1 D1) as W. apply nodup_app_iff in W as (_ & _ & W). exact (W c X Y). }
  split.
  - unfold s2. constructor; cbn [recycle set_entries hs_size hs_heap hs_table hs_pooled hs_entries hs_fresh]; rewrite ?Z1, ?Z2, ?Z3, ?Z4.
    + apply I.
    + intros j. destruct (N.eq_dec j i) as [->|Ne].
      * rewrite updN_same. apply chain_upd; auto. rewrite in_app_iff; tauto.
      * rewrite updN_other, Z5 by auto. apply chain_upd; [intros X; apply (Hfj j b); auto; rewrite in_app_iff; cbn; auto|].
        eapply chain_ext; [|apply I]. intros c Hc. rewrite Z7; auto. intros X. apply (Hfj j c); auto. rewrite in_app_iff; auto.
    + intros j Hj. rewrite updN_other by lia. now apply I.
    + cbn. split; auto. rewrite upd_same. cbn. apply chain_upd; [intros X; exact (D3 b Hbb X)|]. eapply chain_ext; [|apply I].
      intros c Hc. rewrite Z7; auto. intros X. apply (D3 c); auto. apply bins_In. exists i. rewrite Ef, in_app_iff; auto.
    + eapply Permutation_NoDup; [apply Permutation_middle|]. cbn. constructor; [|apply nodup_app_iff; split; auto; split; auto; intros c X Y; apply (D3 c); auto; apply (Permutation_in _ (Permutation_sym P3)); cbn; auto].
      rewrite in_app_iff. intros [X|X]; auto. exact (D3 b Hbb X).
    + intros c X. apply (i_fresh _ _ _ _ I). rewrite in_app_iff in *. cbn in X.
      destruct X as [X|[<-|X]]; auto. left. apply (Permutation_in _ (Permutation_sym P3)). cbn; auto.
    + intros j c X. assert (Y : In c (f j) /\ c <> b).
      { destruct (N.eq_dec j i) as [->|Ne].
        - rewrite updN_same in X. rewrite Ef. rewrite in_app_iff in *. cbn. split; [tauto|]. intros ->; tauto.
        - rewrite updN_other in X by auto. split; auto. intros ->. apply (Hfj j b); auto. rewrite in_app_iff; cbn; auto. }
      destruct Y as [Y1 Y2]. rewrite upd_other by auto. destruct (Z6 c) as [W1 W2]. rewrite W1, W2. now apply I.
    + assert (Q : Permutation (map Some (e :: L')) (bin_elt (hs_heap s b) :: map (fun c => bin_elt (hs_heap s c)) (bins (updN f i (a ++ r)) (hs_size s)))).
      { rewrite <- (Permutation_map Some EL), (i_elts _ _ _ _ I), (Permutation_map _ P3). reflexivity. }
      rewrite Eb in Q. cbn in Q. apply Permutation_cons_inv in Q. rewrite Q. erewrite map_ext_in; [reflexivity|]. intros c Hc. cbn.
      rewrite upd_other by (intros ->; auto). symmetry. apply Z6.
    + pose proof (Permutation_NoDup (Permutation_map ku EL) (i_keys _ _ _ _ I)) as X. cbn in X. now apply NoDup_cons_iff in X.
    + rewrite (i_entries _ _ _ _ I). rewrite (Permutation_length EL). cbn [length]. lia.
    + pose proof (i_room _ _ _ _ I). lia.
  - split; [exact Z1|]. split; [exact Z2|]. split; [exact Z5|]. split.
    + intros c Hc. unfold s2, recycle, set_entries. cbn. rewrite upd_other by auto. apply Z6.
    + intros c Hc Ha. unfold s2, recycle, set_entries. cbn. rewrite upd_other by auto. auto.
Qed.
Lemma remove_ok s L f P p : Inv s L f P ->
  exists s' L' f' P', hs_remove isEqual s (hk (kt p)) p = Some (find (isEqual p) L, s') /\ Inv s' L' f' P' /\ Permutation L' (filter (fun e => negb (isEqual p e)) L).
Proof.
  intros I. unfold hs_remove. set (idx := N.modulo (hk (kt p)) (hs_size s)). pose proof (idx_lt _ _ _ _ (hk (kt p)) I) as HL. fold idx in HL.
  destruct (inv_chain_nodup _ _ _ _ idx I) as (C1 & C2 & _ & C4).
  destruct (search_ok (hs_heap s) p (f idx) (hs_fresh s) (inl idx) (hs_table s idx) (i_chain _ _ _ _ I idx) (chain_len _ _ C1 C2)) as (a & [(E & Ea & Hn)|(b & r & E & El & Hb & Hn)]); rewrite E.
  - assert (F : find (isEqual p) L = None) by (eapply search_absent; eauto; fold idx; now rewrite Ea). rewrite F.
    exists s, L, f, P. split; auto. split; auto. rewrite filter_all; auto. intros e He. rewrite (find_none _ _ F e He). reflexivity.
  - destruct (search_present _ _ _ _ p b I) as (e & X1 & X2 & X3 & X4); auto. { apply C4; auto. rewrite El, in_app_iff; cbn; auto. }
    destruct (cut_inv _ _ _ _ idx a b r e I El X1) as (L' & Y1 & Y2 & _). rewrite X4, X1. eexists _, L', _, _. split; [reflexivity|]. split; [exact Y2|].
    rewrite (filter_perm _ _ _ Y1). cbn. rewrite X3. cbn. rewrite filter_all; auto.
    intros e' He'. destruct (isEqual p e') eqn:Q; auto. apply KEY in X3, Q. pose proof (Permutation_NoDup (Permutation_map ku Y1) (i_keys _ _ _ _ I)) as W. cbn in W.
    apply NoDup_cons_iff in W as [W _]. exfalso. apply W. rewrite <- X3, Q. now apply in_map.
Qed.
(** filtering one chain: [a] is the kept part, the rest of the chain [r] is still to be looked at *)
Lemma filter_chain_ok g : forall r fuel s L f P i a, Inv s L f P -> f i = a ++ r -> length r <= fuel ->
  (forall b, In b a -> exists e, bin_elt (hs_heap s b) = Some e /\ g e = true) ->
  exists s' L' f' P' D, filter_chain fuel g (prev_of i a) (match r with [] => None | b :: _ => Some b end) s = Some s' /\ Inv s' L' f' P' /\ Permutation L (L' ++ D) /\
    hs_size s' = hs_size s /\ hs_fresh s' = hs_fresh s /\ (forall j, j <> i -> f' j = f j /\ (forall b, In b (f j) -> bin_elt (hs_heap s' b) = bin_elt (hs_heap s b))) /\
    (forall b, In b (f' i) -> exists e, bin_elt (hs_heap s' b) = Some e /\ g e = true) /\ Forall (fun e => g e = false) D.
Proof.
  induction r as [|b r IH]; intros fuel s L f P i a I Ef Hf Ha.
  - exists s, L, f, P, []. rewrite app_nil_r in *. split; [destruct fuel; reflexivity|]. split; [exact I|]. split; [reflexivity|]. split; [reflexivity|]. split; [reflexivity|]. split; [auto|]. split; [now rewrite Ef|constructor].
  - destruct fuel as [|fuel]; cbn in Hf; [lia|]. cbn [filter_chain].
    assert (Hbi : In b (f i)) by (rewrite Ef, in_app_iff; cbn; auto).
    destruct (i_bin _ _ _ _ I _ _ Hbi) as (e & E1 & _). rewrite E1.
    assert (Nx : bin_next (hs_heap s b) = match r with [] => None | c :: _ => Some c end).
    { pose proof (i_chain _ _ _ _ I i) as C. rewrite Ef in C. revert C. generalize (hs_table s i). clear. induction a as [|x a IHa]; intros p C; cbn in C; [|apply (IHa _ (proj2 C))].
      destruct C as [_ C]. destruct r; cbn in C; tauto. }
    destruct (g e) eqn:G.
    + rewrite Nx. replace (inr b : N + nat) with (prev_of i (a ++ [b])) by (unfold prev_of; rewrite rev_app_distr; reflexivity).
      apply IH with (P := P); auto; [rewrite <- app_assoc; auto|lia|].
      intros c Hc. apply in_app_iff in Hc as [Hc|[<-|[]]]; eauto.
    + destruct (cut_inv _ _ _ _ i a b r e I Ef E1) as (L1 & Y1 & Y2 & Y3 & Y4 & Y5 & Y6 & Y7).
      set (s2 := recycle (set_entries (store s (prev_of i a) (bin_next (hs_heap s b))) (hs_entries (store s (prev_of i a) (bin_next (hs_heap s b))) - 1)) b) in *.
      destruct (inv_chain_nodup _ _ _ _ i I) as (N1 & _). rewrite Ef in N1. pose proof (NoDup_remove_2 _ _ _ N1) as N2. rewrite in_app_iff in N2.
      destruct (IH fuel s2 L1 (updN f i (a ++ r)) (b :: P) i a) as (s' & L' & f' & P' & D & Z1 & Z2 & Z3 & Z4 & Z5 & Z6 & Z7 & Z8); auto.
      * now rewrite updN_same.
      * lia.
      * intros c Hc. destruct (Ha c Hc) as (e' & W1 & W2). exists e'. split; auto. rewrite Y6; auto. intros ->; tauto.
      * exists s', L', f', P', (e :: D). rewrite Nx in *.
        split; [exact Z1|]. split; [exact Z2|]. split; [rewrite Y1, Z3; apply Permutation_middle|]. split; [congruence|]. split; [congruence|]. split; [|split; auto].
        intros j Hj. destruct (Z6 j Hj) as [V1 V2]. rewrite updN_other in V1, V2 by auto. split; auto. intros c Hc. rewrite V2 by auto. apply Y6. intros ->.
        (* b is not in another chain *)
        destruct (N.lt_ge_cases j (hs_size s)) as [Lj|Lj]; [|rewrite (i_out _ _ _ _ I) in Hc by auto; destruct Hc].
        destruct (i_bin _ _ _ _ I _ _ Hc) as (x1 & A1 & _ & A2). destruct (i_bin _ _ _ _ I _ _ Hbi) as (x2 & B1 & _ & B2). rewrite A1 in B1. injection B1 as <-. congruence.
Qed.
Lemma filter_all_ok g : forall is fuel s L f P, Inv s L f P -> NoDup is -> hs_fresh s <= fuel ->
  exists s' L' f' P' D, filter_all_chains fuel g is s = Some s' /\ Inv s' L' f' P' /\ Permutation L (L' ++ D) /\ hs_size s' = hs_size s /\
    (forall j, ~ In j is -> f' j = f j /\ (forall b, In b (f j) -> bin_elt (hs_heap s' b) = bin_elt (hs_heap s b))) /\
    (forall j b, In j is -> In b (f' j) -> exists e, bin_elt (hs_heap s' b) = Some e /\ g e = true) /\ Forall (fun e => g e = false) D.
Proof.
  induction is as [|i is IH]; intros fuel s L f P I ND Hf; cbn [filter_all_chains].
  - exists s, L, f, P, []. rewrite app_nil_r. split; [reflexivity|]. split; [exact I|]. split; [reflexivity|]. split; [reflexivity|]. split; [auto|]. split; [intros j b []|constructor].
  - apply NoDup_cons_iff in ND as [N1 N2]. destruct (inv_chain_nodup _ _ _ _ i I) as (C1 & C2 & _ & _). pose proof (chain_len _ _ C1 C2) as Hlen.
    destruct (filter_chain_ok g (f i) fuel s L f P i [] I eq_refl ltac:(lia)) as (s1 & L1 & f1 & P1 & D1 & Z1 & Z2 & Z3 & Z4 & Z5 & Z6 & Z7 & Z8); [intros b []|].
    assert (Ht : hs_table s i = match f i with [] => None | b :: _ => Some b end).
    { pose proof (i_chain _ _ _ _ I i) as C. destruct (f i); cbn in C; tauto. }
    rewrite Ht. unfold prev_of in Z1. cbn [rev] in Z1. rewrite Z1.
    destruct (IH fuel s1 L1 f1 P1 Z2 N2 ltac:(lia)) as (s2 & L2 & f2 & P2 & D2 & Y1 & Y2 & Y3 & Y4 & Y5 & Y6 & Y7).
    exists s2, L2, f2, P2, (D2 ++ D1). split; auto. split; auto. split; [rewrite Z3, Y3, app_assoc; reflexivity|]. split; [congruence|]. split; [|split].
    + intros j Hj. cbn in Hj. destruct (Y5 j ltac:(tauto)) as [W1 W2]. destruct (Z6 j ltac:(intros ->; tauto)) as [V1 V2]. split; [congruence|].
      intros b Hb. rewrite W2, V2; auto. rewrite V1; auto.
    + intros j b [<-|Hj] Hb; eauto. destruct (Y5 i N1) as [W1 W2]. rewrite W1 in Hb. rewrite W2; auto.
    + apply Forall_app; auto.
Qed.
Lemma filter_ok s L f P g : Inv s L f P -> exists s' L' f' P', hs_filter s g = Some s' /\ Inv s' L' f' P' /\ Permutation L' (filter g L).
Proof.
  intros I. destruct (filter_all_ok g (indices (hs_size s)) (hs_fresh s) s L f P I (indices_NoDup _) (le_n _)) as (s' & L' & f' & P' & D & Z1 & Z2 & Z3 & Z4 & Z5 & Z6 & Z7).
  exists s', L', f', P'. split; auto. split; auto. rewrite (filter_perm g _ _ Z3), filter_app, (filter_none g D), app_nil_r.
  - rewrite filter_all; auto. intros e He. apply (inv_mem _ _ _ _ e Z2) in He as (b & B1 & B2). apply bins_In in B1 as (j & Lj & Hb).
    destruct (Z6 j b) as (e' & W1 & W2); auto. { apply indices_In. now rewrite <- Z4. } congruence.
  - intros x Hx. rewrite Forall_forall in Z7. auto.
Qed.

(** ** Each *)
Lemma walk_ok h l : forall fuel p, chain h p l -> length l <= fuel -> (forall b, In b l -> exists e, bin_elt (h b) = Some e) ->
  exists es, walk fuel h p = Some es /\ map Some es = map (fun b => bin_elt (h b)) l.
Proof.
  induction l as [|b l IH]; intros fuel p C Hf He; cbn in C.
  - subst p. exists []. destruct fuel; auto.
  - destruct C as [-> C]. destruct fuel as [|fuel]; cbn in Hf; [lia|]. cbn [walk]. destruct (He b ltac:(cbn; auto)) as (e & E). rewrite E.
    destruct (IH fuel _ C ltac:(lia)) as (es & E1 & E2); [intros; apply He; cbn; auto|]. rewrite E1. exists (e :: es). split; auto. cbn. now rewrite E, E2.
Qed.
Lemma walk_all_ok h fuel t f : forall is, (forall i, In i is -> chain h (t i) (f i) /\ length (f i) <= fuel /\ forall b, In b (f i) -> exists e, bin_elt (h b) = Some e) ->
  exists es, walk_all fuel h t is = Some es /\ map Some es = map (fun b => bin_elt (h b)) (flat_map f is).
Proof.
  induction is as [|i is IH]; intros H; cbn; [exists []; auto|].
  destruct (H i ltac:(cbn; auto)) as (H1 & H2 & H3). destruct (walk_ok h (f i) fuel (t i) H1 H2 H3) as (es & E1 & E2). destruct IH as (es' & E3 & E4); [intros; apply H; cbn; auto|].
  rewrite E1, E3. exists (es ++ es'). split; auto. rewrite !map_app. congruence.
Qed.
Lemma each_ok s L f P : Inv s L f P -> exists es, hs_each s = Some es /\ Permutation es L.
Proof.
  intros I. unfold hs_each. destruct (walk_all_ok (hs_heap s) (hs_fresh s) (hs_table s) f (indices (hs_size s))) as (es & E1 & E2).
  - intros i _. split; [apply I|]. destruct (inv_chain_nodup _ _ _ _ i I) as (C1 & C2 & _ & _). split; [now apply chain_len|].
    intros b Hb. apply I in Hb as (e & ? & _). eauto.
  - exists es. split; auto. fold (bins f (hs_size s)) in E2. rewrite <- (i_elts _ _ _ _ I) in E2 || idtac.
    assert (Q : Permutation (map Some es) (map Some L)) by (rewrite E2; symmetry; apply I).
    apply Permutation_sym in Q. apply Permutation_map_inv in Q as (l3 & Q1 & Q2).
    assert (R : forall x y : list U, map Some x = map Some y -> x = y). { induction x as [|u x IHx]; intros [|v y] Q; cbn in Q; try discriminate; auto. injection Q as -> Q. f_equal; auto. }
    apply R in Q1. subst l3. now apply Permutation_sym.
Qed.

(** ** the refinement *)
Lemma inv_perm s L L' f P : Inv s L f P -> Permutation L L' -> Inv s L' f P.
Proof.
  intros I E. constructor; try apply I.
  - rewrite <- (Permutation_map Some E). apply I.
  - eapply Permutation_NoDup; [apply Permutation_map; exact E|apply I].
  - rewrite <- (Permutation_length E). apply I.
Qed.
Lemma hs_run_ok : forall os s L f P, Inv s L f P -> Forall (hop_ok kt ku) os -> (peak isEqual L os < 1610612741)%N ->
  exists rs, hs_run isEqual kt hk s os = Some rs /\ Forall2 same_result rs (ref_run isEqual L os).
Proof.
  induction os as [|o os IH]; intros s L f P I OK Hp; cbn [hs_run ref_run].
  - exists []. auto.
  - inversion OK as [|? ? O1 O2]; subst. cbn [peak] in Hp.
    assert (Hl : forall l os, (N.of_nat (length l) <= peak isEqual l os)%N) by (intros l [|? ?]; cbn; lia).
    assert (G : forall L1 f1 P1 s1 r r1, Inv s1 L1 f1 P1 -> Permutation L1 (snd (ref_step isEqual L o)) -> hs_step isEqual kt hk s o = Some (r, s1) -> fst (ref_step isEqual L o) = r1 -> same_result r r1 ->
      exists rs, match hs_step isEqual kt hk s o with None => None | Some (r, s) => match hs_run isEqual kt hk s os with Some rs => Some (r :: rs) | None => None end end = Some rs /\
        Forall2 same_result rs (let '(r, l) := ref_step isEqual L o in r :: ref_run isEqual l os)).
    { intros L1 f1 P1 s1 r r1 I1 E1 E2 E3 E4. rewrite E2. destruct (ref_step isEqual L o) as [r2 L2]. cbn [fst snd] in *. subst r2.
      destruct (IH s1 L2 f1 P1 (inv_perm _ _ _ _ _ I1 E1) O2) as (rs & R1 & R2); [lia|]. rewrite R1. exists (r :: rs). auto. }
    destruct o as [p tr|p|p|g| |]; cbn [hs_step ref_step hop_ok] in *.
    + destruct (insert_ok s L f P p tr I O1) as (s' & f' & P' & X).
      { intros F. rewrite F in Hp. cbn [snd] in Hp. pose proof (Hl (tr p :: L) os). cbn [length] in *. lia. }
      destruct (find (isEqual p) L) as [e|] eqn:F; destruct X as [X1 X2]; rewrite X1 in *; eapply G; eauto; cbn; auto.
    + destruct (remove_ok s L f P p I) as (s' & L' & f' & P' & X1 & X2 & X3). rewrite X1 in *. eapply G; eauto; cbn; auto.
    + rewrite (find_ok s L f P p I) in *. eapply G; eauto; cbn; auto.
    + destruct (filter_ok s L f P g I) as (s' & L' & f' & P' & X1 & X2 & X3). rewrite X1 in *. eapply G; eauto; cbn; auto.
    + destruct (each_ok s L f P I) as (es & X1 & X2). rewrite X1 in *. eapply G; eauto; cbn; auto.
    + eapply G; eauto; cbn; auto. unfold hs_count. f_equal. apply I.
Qed.
End P.
