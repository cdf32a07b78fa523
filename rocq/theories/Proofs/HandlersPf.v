(** Proofs about the handler table. *)
From Coq Require Import List NArith Bool Arith Lia.
From Verif Require Import SpecHash SpecHandlers.
From Verif.Model Require Import HashSet Handlers.
From Verif.Proofs Require Import HashSetPf.
Import ListNotations.
Local Open Scope N_scope.

Lemma hash_pair_comm a b : hash_pair a b = hash_pair b a.
Proof. apply N.lxor_comm. Qed.
Definition ukey (k : Key) : N * N := (N.min (k_a k) (k_b k), N.max (k_a k) (k_b k)).
Definition uhash (p : N * N) : N := hash_pair (fst p) (snd p).
Lemma uhash_key p a b : uhash (ukey (mkKey p a b)) = hash_pair a b.
Proof.
  unfold uhash, ukey. cbn. destruct (N.le_gt_cases a b) as [H|H].
  - now rewrite N.min_l, N.max_r by auto.
  - rewrite N.min_r, N.max_l by lia. apply hash_pair_comm.
Qed.
Lemma key_eql_iff a b : key_eql a b = true <-> ukey a = ukey b.
Proof.
  unfold key_eql, ukey. split.
  - intros H. destruct (_ =? _) eqn:E1 in H; destruct (k_b a =? k_b b) eqn:E2 in H; destruct (k_b a =? k_a b) eqn:E3 in H; destruct (k_a a =? k_b b) eqn:E4 in H; cbn in H;
    rewrite ?N.eqb_eq, ?N.eqb_neq in *; try discriminate; f_equal; lia.
  - intros H. assert (k_a a = k_a b /\ k_b a = k_b b \/ k_b a = k_a b /\ k_a a = k_b b) as [[-> ->]|[-> ->]] by (injection H; lia).
    + now rewrite !N.eqb_refl.
    + rewrite !N.eqb_refl. now destruct ((k_b b =? k_a b) && (k_a b =? k_b b)).
Qed.
Lemma keyedK : keyed key_eql ukey ukey.
Proof. intros p e. apply key_eql_iff. Qed.
Lemma same_pairb_iff p q : same_pairb p q = true <-> same_pair p q.
Proof.
  unfold same_pairb, same_pair. destruct p as [a b], q as [c d]. cbn. rewrite orb_true_iff, !andb_true_iff, !N.eqb_eq. split.
  - intros [[-> ->]|[-> ->]]; auto.
  - intros [[= -> ->]|[= -> ->]]; auto.
Qed.
Lemma same_pair_key p a b k : same_pair (k_a k, k_b k) (a, b) <-> key_eql (mkKey p a b) k = true.
Proof.
  rewrite key_eql_iff. unfold same_pair, ukey. destruct k as [q c d]. cbn. split.
  - intros [[= -> ->]|[= -> ->]]; f_equal; lia.
  - intros [=]. assert (c = a /\ d = b \/ c = b /\ d = a) as [[-> ->]|[-> ->]] by lia; auto.
Qed.

Notation KInv := (Inv ukey uhash).
Definition Log := list ((N * N) * Key).
Record J (s : HSpace) (log : Log) : Prop := {
  j_list : exists L f P, KInv (hd_set s) L f P /\
    (forall a b, option_map snd (first_reg log a b) = find (key_eql (mkKey 0 a b)) L) /\
    (forall k, In k L -> (k_ptr k < hd_fresh s)%nat) /\ NoDup (map k_ptr L) /\ (length L <= length log)%nat;
  j_types : forall a b p k, first_reg log a b = Some (p, k) -> p = (k_a k, k_b k);
  j_log : forall p k, In (p, k) log -> exists q, first_reg log (fst p) (snd p) = Some (q, k) }.

Lemma j_init : J h_init [].
Proof.
  constructor.
  - exists [], (fun _ => []), []. split; [apply inv_new|]. split; [reflexivity|]. split; [intros k []|]. split; [constructor|cbn; lia].
  - discriminate.
  - intros p k [].
Qed.
Lemma find_app {A} (f : A -> bool) l m : find f (l ++ m) = match find f l with Some x => Some x | None => find f m end.
Proof. induction l as [|x l IH]; cbn; auto. destruct (f x); auto. Qed.
Lemma key_eql_ptr p q a b k : key_eql (mkKey p a b) k = key_eql (mkKey q a b) k.
Proof. reflexivity. Qed.
Lemma find_key_ptr p a b L : find (key_eql (mkKey p a b)) L = find (key_eql (mkKey 0 a b)) L.
Proof. induction L as [|k L IH]; reflexivity. Qed.

Lemma first_reg_same log a b c d : same_pair (a, b) (c, d) -> first_reg log a b = first_reg log c d.
Proof.
  intros H. unfold first_reg. induction log as [|e log IH]; cbn [find]; auto. rewrite IH.
  assert (E : same_pairb (fst e) (a, b) = same_pairb (fst e) (c, d)).
  { apply eq_true_iff_eq. rewrite !same_pairb_iff. unfold same_pair in *. cbn in *. destruct H as [[= -> ->]|[= -> ->]]; tauto. }
  now rewrite E.
Qed.

Lemma register_ok s log a b f : J s log -> (N.of_nat (length log) + 1 < 1610612741) ->
  exists k s', register s a b f = Some (k, s') /\ J s' (log ++ [((a, b), k)]) /\ hd_wild s' = hd_wild s /\
    (match first_reg log a b with Some (_, k0) => k = k0 | None => k = mkKey (hd_fresh s) a b end) /\
    (forall p, p <> hd_fresh s -> hd_fns s' p = hd_fns s p) /\ hd_fns s' (hd_fresh s) = f /\ hd_fresh s' = S (hd_fresh s) /\
    (forall p k0, In (p, k0) log -> (k_ptr k0 < hd_fresh s)%nat).
Proof.
  intros [(L & fc & P & I & F & B & ND & Len) JT JL] Hb.
  assert (PL : forall p k0, In (p, k0) log -> In k0 L).
  { intros p k0 H0. destruct (JL _ _ H0) as (q & Q). pose proof (F (fst p) (snd p)) as F0. rewrite Q in F0. cbn in F0. symmetry in F0. now apply find_some in F0. }
  unfold register. cbn [hd_set hd_fns hd_fresh hd_wild]. set (k := mkKey (hd_fresh s) a b).
  rewrite <- (uhash_key (hd_fresh s) a b). fold k.
  destruct (insert_ok key_eql ukey ukey uhash keyedK (hd_set s) L fc P k (fun k => k) I eq_refl) as (s' & f' & P' & X).
  { intros _. lia. }
  assert (Fk : find (key_eql k) L = option_map snd (first_reg log a b)) by (unfold k; rewrite find_key_ptr; symmetry; apply F).
  rewrite Fk in X. destruct (first_reg log a b) as [[q k0]|] eqn:E; cbn [option_map snd] in X; destruct X as [X1 X2]; rewrite X1.
  - exists k0. eexists. split; [reflexivity|]. cbn [hd_set hd_fns hd_fresh hd_wild]. split.
    2:{ split; [reflexivity|]. split; [reflexivity|]. split; [intros; now apply upd_other|]. split; [apply upd_same|]. split; [reflexivity|]. intros; eauto. }
    assert (G : forall c d, first_reg (log ++ [((a, b), k0)]) c d = first_reg log c d).
    { intros c d. unfold first_reg. rewrite find_app. destruct (find _ log) eqn:Q; auto. cbn. destruct (same_pairb (a, b) (c, d)) eqn:S; auto.
      apply same_pairb_iff in S. fold (first_reg log c d) in Q. rewrite (first_reg_same _ _ _ _ _ S) in E. congruence. }
    constructor.
    + exists L, f', P'. cbn [hd_set hd_fresh]. split; [exact X2|]. split; [intros; rewrite G; apply F|]. split; [intros k1 H1; apply B in H1; lia|]. split; [exact ND|]. rewrite app_length. cbn. lia.
    + intros c d p k1. rewrite G. apply JT.
    + intros p k1 H1. apply in_app_or in H1 as [H1|[[= <- <-]|[]]].
      * rewrite G. auto.
      * cbn. rewrite G. eauto.
  - exists k. eexists. split; [reflexivity|]. cbn [hd_set hd_fns hd_fresh hd_wild]. split.
    2:{ split; [reflexivity|]. split; [reflexivity|]. split; [intros; now apply upd_other|]. split; [apply upd_same|]. split; [reflexivity|]. intros; eauto. }
    assert (G : forall c d, first_reg (log ++ [((a, b), k)]) c d = match first_reg log c d with Some e => Some e | None => if same_pairb (a, b) (c, d) then Some ((a, b), k) else None end).
    { intros c d. unfold first_reg. rewrite find_app. now destruct (find _ log). }
    constructor.
    + exists (k :: L), f', P'. cbn [hd_set hd_fresh]. split; [exact X2|]. split; [|split; [|split]].
      * intros c d. rewrite G. cbn [find]. pose proof (F c d) as F0.
        assert (SE : key_eql (mkKey 0 c d) k = same_pairb (a, b) (c, d)).
        { apply eq_true_iff_eq. rewrite same_pairb_iff. rewrite <- (same_pair_key 0 c d k). reflexivity. }
        rewrite SE. destruct (same_pairb (a, b) (c, d)) eqn:S.
        -- apply same_pairb_iff in S. rewrite <- (first_reg_same _ _ _ _ _ S), E. reflexivity.
        -- rewrite <- F0. now destruct (first_reg log c d).
      * intros k1 [<-|H1]; [cbn; lia|]. apply B in H1. lia.
      * cbn. constructor; auto. intros H1. apply in_map_iff in H1 as (k1 & K1 & K2). apply B in K2. lia.
      * rewrite app_length. cbn. lia.
    + intros c d p k1. rewrite G. destruct (first_reg log c d) as [e|] eqn:Q.
      * intros [= ->]. eauto.
      * destruct (same_pairb (a, b) (c, d)); [|discriminate]. intros [= <- <-]. reflexivity.
    + intros p k1 H1. rewrite G. apply in_app_or in H1 as [H1|[[= <- <-]|[]]].
      * destruct (JL _ _ H1) as (q & ->). eauto.
      * cbn. rewrite E. assert (same_pairb (a, b) (a, b) = true) as -> by (apply same_pairb_iff; now left). eauto.
Qed.

Lemma lookup_ok s log a b d : J s log -> lookup s a b d = Some (match first_reg log a b with Some (_, k) => HReg k | None => d end).
Proof.
  intros [(L & fc & P & I & F & _) _ _]. unfold lookup. rewrite <- (uhash_key 0 a b), (find_ok key_eql ukey ukey uhash keyedK _ _ _ _ _ I), <- F.
  now destruct (first_reg log a b) as [[q k]|].
Qed.

Lemma hrun_ok : forall os s log, J s log -> N.of_nat (length log + length os) < 1610612741 ->
  exists log' s', hrun s log os = Some (log', s') /\ J s' log' /\ hd_wild s' = (hd_wild s || has_wild os)%bool /\ (length log' <= length log + length os)%nat /\
    exists l, log' = log ++ l.
Proof.
  induction os as [|o os IH]; intros s log Js Hb; cbn [hrun].
  - exists log, s. split; [reflexivity|]. split; [exact Js|]. split; [cbn; now rewrite orb_false_r|]. split; [lia|]. exists []. now rewrite app_nil_r.
  - cbn [length] in Hb. destruct o as [a b|t|p f]; cbn [hstep].
    + destruct (register_ok s log a b (mkFns FDefault FDefault FDefault FDefault 0) Js ltac:(lia)) as (k & s1 & E & J1 & W & _). unfold new_handler. rewrite E.
      destruct (IH s1 (log ++ [((a, b), k)]) J1) as (l2 & s2 & E2 & J2 & W2 & Len & l & Hl). { rewrite app_length. cbn. lia. }
      exists l2, s2. split; [exact E2|]. split; [exact J2|]. split; [now rewrite W2, W|]. split; [rewrite app_length in Len; cbn in *; lia|].
      exists ([((a, b), k)] ++ l). now rewrite app_assoc.
    + set (s0 := mkHSp (hd_set s) (hd_fns s) (hd_fresh s) true).
      assert (Js0 : J s0 log) by (destruct Js; constructor; auto).
      destruct (register_ok s0 log t WILDCARD (mkFns FNothing FNothing FNothing FNothing 0) Js0 ltac:(lia)) as (k & s1 & E & J1 & W & _). unfold new_wildcard. fold s0. rewrite E.
      destruct (IH s1 (log ++ [((t, WILDCARD), k)]) J1) as (l2 & s2 & E2 & J2 & W2 & Len & l & Hl). { rewrite app_length. cbn. lia. }
      exists l2, s2. split; [exact E2|]. split; [exact J2|]. split; [rewrite W2, W; cbn; now rewrite orb_true_r|]. split; [rewrite app_length in Len; cbn in *; lia|].
      exists ([((t, WILDCARD), k)] ++ l). now rewrite app_assoc.
    + rewrite app_nil_r. destruct (IH (assign s p f) log) as (l2 & s2 & E2 & J2 & W2 & Len & Hl); [destruct Js; constructor; auto|lia|].
      exists l2, s2. split; [exact E2|]. split; [exact J2|]. split; [exact W2|]. split; [cbn in *; lia|exact Hl].
Qed.

Lemma run_fn_user s ans fuel ph arb h data tr id : fn_of ph (hdl_fns s h) = FUser id ->
  run_fn s ans fuel ph arb h data tr = Some (ans tr (mkCall id ph (shapes arb) data), tr ++ [mkCall id ph (shapes arb) data]).
Proof. intros E. destruct fuel; cbn [run_fn]; now rewrite E. Qed.
Lemma run_fn_nothing s ans fuel ph arb h data tr : fn_of ph (hdl_fns s h) = FNothing -> run_fn s ans fuel ph arb h data tr = Some (true, tr).
Proof. intros E. destruct fuel; cbn [run_fn]; now rewrite E. Qed.
