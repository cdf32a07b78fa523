From Coq Require Import List ZArith Bool Arith Lia.
From Verif.Model Require Import PostStep.
Import ListNotations.

Definition accs (t : bool) (tr : list PEv) : list nat := flat_map (fun e => match e with Accepted n b => if Bool.eqb b t then [n] else [] | _ => [] end) tr.
Definition rans (tr : list PEv) : list nat := flat_map (fun e => match e with Ran n => [n] | _ => [] end) tr.
Lemma accs_app t a b : accs t (a ++ b) = accs t a ++ accs t b. Proof. apply flat_map_app. Qed.
Lemma rans_app a b : rans (a ++ b) = rans a ++ rans b. Proof. apply flat_map_app. Qed.

Lemma accs_t n : accs true [Accepted n true] = [n]. Proof. reflexivity. Qed.
Lemma accs_f n : accs false [Accepted n true] = []. Proof. reflexivity. Qed.
Lemma accs_r t n b : accs t [Refused n b] = []. Proof. reflexivity. Qed.
Lemma rans_a n b : rans [Accepted n b] = []. Proof. reflexivity. Qed.
Lemma rans_r n b : rans [Refused n b] = []. Proof. reflexivity. Qed.
Section Pf.
Variable prog : nat -> list Act.
(** at top level: not inside a callback *)
Record Idle (s : PS) : Prop := {
  p_skip : ps_skip s = false;
  p_all : accs true (ps_tr s) = rans (ps_tr s) ++ ps_q s;
  p_lt : forall n, In n (accs true (ps_tr s)) -> n < ps_n s;
  p_nd : NoDup (accs true (ps_tr s));
  p_sep : forall n, In n (accs false (ps_tr s)) -> n < ps_n s /\ ~ In n (accs true (ps_tr s));
  p_cb : forall n, In n (ps_q s) -> ps_cb (ps_ent s n) <> None;
  p_keys : forall n m, In n (ps_q s) -> In m (ps_q s) -> ps_key (ps_ent s n) = ps_key (ps_ent s m) -> ps_key (ps_ent s n) <> None -> n = m }.
(** what calls made by a running callback do: they only append *)
Record Inside (s s' : PS) : Prop := {
  n_skip : ps_skip s' = true;
  n_q : exists l, ps_q s' = ps_q s ++ l;
  n_n : ps_n s <= ps_n s';
  n_ent : forall n, n < ps_n s -> ps_ent s' n = ps_ent s n;
  n_tr : exists l, ps_tr s' = ps_tr s ++ l /\ accs true l = [] /\ rans l = [] /\ forall n, In n (accs false l) -> ps_n s <= n < ps_n s' }.
Lemma inside_refl s : ps_skip s = true -> Inside s s.
Proof. intros. constructor; auto; exists []; rewrite app_nil_r; repeat split; auto; destruct H0. Qed.
Lemma inside_trans a b c : Inside a b -> Inside b c -> Inside a c.
Proof.
  intros [A1 [q1 A2] A3 A4 [t1 (A5 & A6 & A7 & A8)]] [B1 [q2 B2] B3 B4 [t2 (B5 & B6 & B7 & B8)]]. constructor; auto; try lia.
  - exists (q1 ++ q2). rewrite B2, A2, app_assoc. auto.
  - intros n L. rewrite B4 by lia. auto.
  - exists (t1 ++ t2). rewrite B5, A5, app_assoc, !accs_app, rans_app, A6, A7, B6, B7. split; [auto|split; [auto|split; [auto|]]]. intros n Hn. apply in_app_iff in Hn as [Hn|Hn]; [apply A8 in Hn; lia|apply B8 in Hn; lia].
Qed.
Lemma inside_act f s a : ps_skip s = true -> exists s', act prog f false s a = Some s' /\ Inside s s'.
Proof.
  intros K. destruct a as [k cb| |run].
  - destruct f; cbn [act]; (eexists; split; [reflexivity|]); unfold add_cb; (destruct (match k with None => true | _ => _ end); constructor; cbn; auto; [eauto|intros n L; destruct (Nat.eqb_spec n (ps_n s)); [lia|auto]|exists [Accepted (ps_n s) false]; split; [reflexivity|split; [reflexivity|split; [reflexivity|cbn; intros n [<-|[]]; lia]]]|exists []; now rewrite app_nil_r|exists [Refused (ps_n s) false]; split; [reflexivity|split; [reflexivity|split; [reflexivity|cbn; intros n []]]]]).
  - destruct f; cbn [act]; (eexists; split; [reflexivity|]); constructor; cbn; auto; exists []; rewrite app_nil_r; auto; (split; [auto|split; [auto|split; [auto|cbn; intros n []]]]).
  - assert (E : act prog f false s (UnlockSpace run) = Some (ps_lock s (ps_locked s - 1))).
    { destruct f; cbn [act]; cbn; rewrite K, andb_false_r; now destruct (negb _). }
    exists (ps_lock s (ps_locked s - 1)). split; auto. constructor; cbn; auto; exists []; rewrite app_nil_r; auto; (split; [auto|split; [auto|split; [auto|cbn; intros n []]]]).
Qed.
Lemma inside_seq f l : forall s, ps_skip s = true -> exists s', seq (act prog f false) s l = Some s' /\ Inside s s'.
Proof.
  induction l as [|a l IH]; intros s K; cbn [seq]; [exists s; split; auto; now apply inside_refl|]. destruct (inside_act f s a K) as (s1 & -> & I1). destruct (IH s1 (n_skip _ _ I1)) as (s2 & E2 & I2). exists s2. split; auto. eapply inside_trans; eauto.
Qed.
Lemma drain_ok f l : forall s, ps_skip s = true -> NoDup l -> (forall n, In n l -> n < ps_n s /\ ps_cb (ps_ent s n) <> None) ->
  exists s' tr, drain prog (act prog f false) s l = Some s' /\ ps_tr s' = ps_tr s ++ tr /\ accs true tr = [] /\ rans tr = l /\ ps_n s <= ps_n s' /\ ps_skip s' = true /\ (forall n, In n (accs false tr) -> ps_n s <= n < ps_n s').
Proof.
  induction l as [|n l IH]; intros s K ND G; cbn [drain].
  - exists s, []. rewrite app_nil_r. do 6 (split; [auto|]). intros n [].
  - apply NoDup_cons_iff in ND as [N1 N2]. destruct (G n (or_introl eq_refl)) as [L C]. destruct (ps_cb (ps_ent s n)) as [cb|]; [|congruence].
    destruct (inside_seq f (body prog cb) (say (take s n) (Ran n)) K) as (s1 & -> & [I1 I2 I3 I4 [t1 (I5 & I6 & I7 & I8)]]). cbn in I3, I4, I5, I8.
    destruct (IH s1 I1 N2) as (s2 & t2 & E2 & T2 & A2 & R2 & LE2 & K2 & F2).
    { intros m Hm. destruct (G m (or_intror Hm)) as [Lm Cm]. split; [lia|]. rewrite I4 by auto. destruct (Nat.eqb_spec m n); [subst; tauto|auto]. }
    exists s2, (Ran n :: t1 ++ t2). split; auto. split; [rewrite T2, I5, <- !app_assoc; reflexivity|]. change (accs ?b (Ran n :: t1 ++ t2)) with (accs b (t1 ++ t2)). change (rans (Ran n :: t1 ++ t2)) with (n :: rans (t1 ++ t2)). rewrite !accs_app, rans_app, I6, I7, A2, R2. cbn [app]. do 4 (split; [auto; lia|]). intros m Hm. apply in_app_iff in Hm as [Hm|Hm]; [apply I8 in Hm; lia|apply F2 in Hm; lia].
Qed.
Lemma idle_init : Idle ps_init.
Proof. constructor; cbn; auto; try tauto. constructor. Qed.
Lemma key_dec (a b : option nat) : keyeq a b = true <-> a = b.
Proof. destruct a, b; cbn; rewrite ?Nat.eqb_eq; split; congruence. Qed.
(** one call at top level *)
Lemma act_ok f s a : Idle s -> exists s', act prog (S f) true s a = Some s' /\ Idle s' /\
  match a with
  | Add k cb => (exists e, ps_tr s' = ps_tr s ++ [e] /\ (e = Accepted (ps_n s) true \/ e = Refused (ps_n s) true)) /\ (ps_tr s' = ps_tr s ++ [Accepted (ps_n s) true] <-> k = None \/ ~ exists n, In n (ps_q s) /\ ps_key (ps_ent s n) = k) /\ ps_locked s' = ps_locked s /\ (ps_tr s' = ps_tr s ++ [Accepted (ps_n s) true] -> ps_key (ps_ent s' (ps_n s)) = k)
  | LockSpace => ps_tr s' = ps_tr s /\ ps_locked s' = (ps_locked s + 1)%Z
  | UnlockSpace run => if run && (ps_locked s =? 1)%Z then ps_q s' = [] /\ rans (ps_tr s') = rans (ps_tr s) ++ ps_q s else ps_tr s' = ps_tr s /\ ps_locked s' = (ps_locked s - 1)%Z
  end.
Proof.
  intros [P1 P2 P3 P4 P7 P5 P6]. destruct a as [k cb| |run].
  - cbn [act]. eexists. split; [reflexivity|]. unfold add_cb.
    assert (FK : find_key s k = true <-> exists n, In n (ps_q s) /\ ps_key (ps_ent s n) = k). { unfold find_key. rewrite existsb_exists. split; intros (n & A & B); exists n; (split; [auto|]); now apply key_dec. }
    assert (QL : forall n, In n (ps_q s) -> n < ps_n s) by (intros n Hn; apply P3; rewrite P2; apply in_or_app; auto).
    assert (COND : (match k with None => true | Some _ => negb (find_key s k) end) = true <-> k = None \/ ~ exists n, In n (ps_q s) /\ ps_key (ps_ent s n) = k).
    { rewrite <- FK. destruct k as [k|]; [|split; auto]. rewrite negb_true_iff. destruct (find_key s (Some k)); split; auto; try discriminate; intros [D|D]; congruence. }
    destruct (match k with None => true | Some _ => _ end) eqn:E.
    + split; [|cbn; split; [|split; [|split]]]; cbn; auto.
      * constructor; cbn [ps_skip ps_q ps_tr ps_n ps_ent]; rewrite ?accs_app, ?rans_app, ?accs_t, ?accs_f, ?accs_r, ?rans_a, ?rans_r, ?app_nil_r; auto.
        -- rewrite P2, app_assoc. auto.
        -- intros n Hn. apply in_app_iff in Hn as [Hn|[<-|[]]]; [apply P3 in Hn; lia|lia].
        -- apply NoDup_rev in P4. rewrite <- (rev_involutive (accs true (ps_tr s) ++ _)). apply NoDup_rev. rewrite rev_app_distr. cbn. constructor; auto. intros D. apply in_rev in D. apply P3 in D. lia.
        -- intros n Hn. apply P7 in Hn as [Hn N]. split; [lia|]. rewrite in_app_iff. cbn. intros [D|[D|[]]]; [auto|lia].
        -- intros n Hn. destruct (Nat.eqb_spec n (ps_n s)); [discriminate|]. apply in_app_iff in Hn as [Hn|[<-|[]]]; [auto|lia].
        -- apply proj1 in COND. specialize (COND eq_refl). intros n m Hn Hm. apply in_app_iff in Hn as [Hn|[<-|[]]], Hm as [Hm|[<-|[]]]; auto.
           ++ apply QL in Hn as Ln. apply QL in Hm as Lm. destruct (Nat.eqb_spec n (ps_n s)); [lia|]. destruct (Nat.eqb_spec m (ps_n s)); [lia|]. auto.
           ++ apply QL in Hn as Ln. destruct (Nat.eqb_spec n (ps_n s)); [lia|]. rewrite Nat.eqb_refl. cbn. intros E1 E2. destruct COND as [->|C]; [congruence|]. destruct C. eauto.
           ++ apply QL in Hm as Lm. destruct (Nat.eqb_spec m (ps_n s)); [lia|]. rewrite Nat.eqb_refl. cbn. intros E1 E2. destruct COND as [->|C]; [congruence|]. destruct C. eauto.
      * eauto.
      * split; auto. intros _. now apply COND.
      * intros _. now rewrite Nat.eqb_refl.
    + split; [|cbn; split; [|split; [|split]]]; cbn; auto.
      * constructor; cbn [ps_skip ps_q ps_tr ps_n ps_ent]; rewrite ?accs_app, ?rans_app, ?accs_t, ?accs_f, ?accs_r, ?rans_a, ?rans_r, ?app_nil_r; auto.
        intros n Hn. apply P3 in Hn. lia. intros n Hn. apply P7 in Hn as [Hn N]. split; [lia|auto].
      * eauto.
      * split; intros D; [apply app_inv_head in D; discriminate|]. apply COND in D. discriminate.
      * intros D. apply app_inv_head in D. discriminate.
  - cbn [act]. eexists. split; [reflexivity|]. split; [constructor; cbn; auto|cbn; auto].
  - cbn [act]. cbn. rewrite P1. assert (ZZ : (ps_locked s - 1 =? 0)%Z = (ps_locked s =? 1)%Z) by (destruct (Z.eqb_spec (ps_locked s - 1) 0), (Z.eqb_spec (ps_locked s) 1); auto; lia). rewrite ZZ. cbn [negb]. rewrite andb_true_r. destruct (ps_locked s =? 1)%Z, run; cbn [negb andb]; cbv iota; try (eexists; split; [reflexivity|]; split; [constructor; cbn; auto|cbn; auto]; fail).
    assert (NQ : NoDup (ps_q s)). { rewrite P2 in P4. clear - P4. induction (rans (ps_tr s)); auto. inversion P4; auto. }
    destruct (drain_ok f (ps_q s) (ps_mode (ps_lock s (ps_locked s - 1)) true (ps_q s))) as (s1 & tr & E & T & A & R & LE & K & F); auto.
    { intros n Hn. cbn. split; [apply P3; rewrite P2; apply in_or_app; auto|auto]. }
    cbn in E, T, LE, F. rewrite E. eexists. split; [reflexivity|]. split; [|cbn; split; auto; now rewrite T, rans_app, R].
    constructor; cbn [ps_skip ps_q ps_tr ps_n ps_ent ps_mode]; rewrite ?T, ?accs_app, ?rans_app, ?A, ?R, ?app_nil_r; auto; try tauto.
    + intros n Hn. apply P3 in Hn. lia.
    + intros n Hn. apply in_app_iff in Hn as [Hn|Hn]; [apply P7 in Hn as [Hn N]; split; [lia|auto]|]. apply F in Hn. split; [lia|]. intros D. apply P3 in D. lia.
    + intros n m [].
Qed.
Lemma history_ok l : forall s, Idle s -> exists s', seq (act prog 1 true) s l = Some s' /\ Idle s'.
Proof. induction l as [|a l IH]; intros s I; cbn [seq]; [eauto|]. destruct (act_ok 0 s a I) as (s1 & -> & I1 & _). auto. Qed.
End Pf.
