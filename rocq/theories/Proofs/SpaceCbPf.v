(** Deferred activation: activating bodies under a lock and unlocking is the same as activating them unlocked. *)
From Coq Require Import List Arith NArith Bool Lia.
From Verif Require Import SpecSpace.
From Verif.Model Require Import HashSet Space SpaceCb.
From Verif.Proofs Require Import Util SpaceLib SpaceInv SpaceAct SpaceOps SpaceReach SpaceTop.
Import ListNotations.

Section Cb.
Context {T : Type} `{Time T}.
Notation Sp := (Space T).
Implicit Types (s t u : Sp) (b x c r : nat).

Definition omap {A B} (f : A -> B) (o : option A) : option B := match o with Some x => Some (f x) | None => None end.
(** the bodies' memory and the list of sleeping components exchanged *)
Definition wr (B : nat -> SBody T) (L : list nat) s : Sp := set_sleep (set_b s B) L.
Definition likeB (B B' : nat -> SBody T) : Prop := forall y, sb_kind (B y) = sb_kind (B' y) /\ sb_shapes (B y) = sb_shapes (B' y) /\ sb_arbs (B y) = sb_arbs (B' y) /\ sb_cons (B y) = sb_cons (B' y).
Lemma each_wr (f : Sp -> nat -> option Sp) B L l : forall s, likeB B (sp_b s) ->
  (forall s x, likeB B (sp_b s) -> f (wr B L s) x = omap (wr B L) (f s x)) -> (forall s x s', f s x = Some s' -> sp_b s' = sp_b s) ->
  each f (wr B L s) l = omap (wr B L) (each f s l).
Proof.
  induction l as [|x l IH]; intros s K F G; cbn [each]; [reflexivity|]. rewrite F by auto. destruct (f s x) as [s'|] eqn:E; cbn [omap]; [|reflexivity]. apply IH; auto. now rewrite (G _ _ _ E).
Qed.
Lemma move_wr B L s x : idx_move_out (wr B L s) x = omap (wr B L) (idx_move_out s x).
Proof. unfold idx_move_out, wr. ss. destruct (memb x (sp_sidx s)); [|reflexivity]. destruct (memb x (sp_didx s)); reflexivity. Qed.
Lemma move_b s x s' : idx_move_out s x = Some s' -> sp_b s' = sp_b s.
Proof. unfold idx_move_out. destruct (memb x (sp_sidx s)); [|discriminate]. ss. destruct (memb x (sp_didx s)); [discriminate|]. now intros [= <-]. Qed.
Lemma arb_wr B L b s x : likeB B (sp_b s) -> restore_arb b (wr B L s) x = omap (wr B L) (restore_arb b s x).
Proof.
  intros K. unfold restore_arb, is_stat, kind. change (sp_b (wr B L s)) with B. change (sp_a (wr B L s)) with (sp_a s). destruct (K (sa_ba (sp_a s x))) as (-> & _). destruct (_ || _); [|reflexivity].
  change (find_pair (wr B L s) ?a ?c) with (find_pair s a c). destruct (find_pair s _ _); reflexivity.
Qed.
Lemma arb_b b s x s' : restore_arb b s x = Some s' -> sp_b s' = sp_b s.
Proof. unfold restore_arb. destruct (_ || _); [|now intros [= <-]]. destruct (find_pair _ _ _); intros [= <-]; reflexivity. Qed.
Lemma con_wr B L b s x : likeB B (sp_b s) -> restore_con b (wr B L s) x = omap (wr B L) (restore_con b s x).
Proof.
  intros K. unfold restore_con, is_stat, kind. change (sp_b (wr B L s)) with B. change (sp_c (wr B L s)) with (sp_c s). destruct (K (sc_a (sp_c s x))) as (-> & _). destruct (_ || _); reflexivity.
Qed.
Lemma con_b b s x s' : restore_con b s x = Some s' -> sp_b s' = sp_b s.
Proof. unfold restore_con. destruct (_ || _); intros [= <-]; reflexivity. Qed.
Lemma each_b (f : Sp -> nat -> option Sp) l : (forall s x s', f s x = Some s' -> sp_b s' = sp_b s) -> forall s s', each f s l = Some s' -> sp_b s' = sp_b s.
Proof. intros G. induction l as [|x l IH]; intros s s' E; cbn [each] in E; [now injection E as <-|]. destruct (f s x) as [s1|] eqn:E1; [|discriminate]. rewrite (IH _ _ E). now apply (G _ x). Qed.
Lemma act_wr B L s b : likeB B (sp_b s) -> sp_locked s = 0 -> space_activate (wr B L s) b = omap (wr B L) (space_activate s b).
Proof.
  intros K Z. unfold space_activate. change (sp_locked (wr B L s)) with (sp_locked s). rewrite Z. cbn [Nat.eqb negb]. cbv iota.
  set (s1 := set_dyn s (sp_dyn s ++ [b])). change (set_dyn (wr B L s) (sp_dyn (wr B L s) ++ [b])) with (wr B L s1).
  assert (K1 : likeB B (sp_b s1)) by exact K. destruct (K b) as (_ & K2 & K3 & K4).
  change (sb_shapes (bod (wr B L s1) b)) with (sb_shapes (B b)). rewrite K2. change (sb_shapes (sp_b s b)) with (sb_shapes (bod s1 b)).
  rewrite each_wr; [|auto|intros; apply move_wr|apply move_b]. destruct (each idx_move_out s1 _) as [s2|] eqn:E2; cbn [omap]; [|reflexivity].
  assert (B2 : sp_b s2 = sp_b s) by (apply (each_b _ _ move_b) in E2; exact E2). assert (K5 : likeB B (sp_b s2)) by (rewrite B2; auto).
  change (sb_arbs (bod (wr B L s2) b)) with (sb_arbs (B b)). rewrite K3. replace (sb_arbs (bod s2 b)) with (sb_arbs (sp_b s b)) by (unfold bod; now rewrite B2). rewrite each_wr; [|auto|intros; now apply arb_wr|intros ? ? ?; apply arb_b].
  destruct (each (restore_arb b) s2 _) as [s3|] eqn:E3; cbn [omap]; [|reflexivity].
  assert (B3 : sp_b s3 = sp_b s) by (apply (each_b _ _ (arb_b b)) in E3; congruence). assert (K6 : likeB B (sp_b s3)) by (rewrite B3; auto).
  change (sb_cons (bod (wr B L s3) b)) with (sb_cons (B b)). rewrite K4. replace (sb_cons (bod s3 b)) with (sb_cons (sp_b s b)) by (unfold bod; now rewrite B3). rewrite each_wr; [|auto|intros; now apply con_wr|intros ? ? ?; apply con_b]. reflexivity.
Qed.
Lemma sp_split s : s = wr (sp_b s) (sp_sleep s) s. Proof. now destruct s. Qed.
(** what waking does not touch *)
Record Same s s' : Prop := { z_b : sp_b s' = sp_b s; z_sl : sp_sleep s' = sp_sleep s; z_nb : sp_nb s' = sp_nb s; z_lk : sp_locked s' = sp_locked s; z_ro : sp_roused s' = sp_roused s; z_a : forall x, sa_ba (sp_a s' x) = sa_ba (sp_a s x) /\ sa_bb (sp_a s' x) = sa_bb (sp_a s x) }.
Lemma same_refl s : Same s s. Proof. constructor; auto. Qed.
Lemma same_trans s s1 s2 : Same s s1 -> Same s1 s2 -> Same s s2.
Proof. intros [A1 A2 A3 A4 A5 A6] [B1 B2 B3 B4 B5 B6]. constructor; try congruence. intros x. destruct (A6 x), (B6 x). split; congruence. Qed.
Lemma each_same (f : Sp -> nat -> option Sp) l : (forall s x s', f s x = Some s' -> Same s s') -> forall s s', each f s l = Some s' -> Same s s'.
Proof. intros G. induction l as [|x l IH]; intros s s' E; cbn [each] in E; [injection E as <-; apply same_refl|]. destruct (f s x) as [s1|] eqn:E1; [|discriminate]. eapply same_trans; [eapply G; exact E1|now apply IH]. Qed.
Lemma act_same s b s' : sp_locked s = 0 -> space_activate s b = Some s' -> Same s s'.
Proof.
  intros Z. unfold space_activate. rewrite Z. cbn [Nat.eqb negb]. cbv iota.
  destruct (each idx_move_out _ _) as [s2|] eqn:E2; [|discriminate]. destruct (each (restore_arb b) s2 _) as [s3|] eqn:E3; [|discriminate]. intros E4.
  assert (S2 : Same s s2). { eapply same_trans; [|eapply each_same; [|exact E2]]; [constructor; auto|]. intros s0 x s1. unfold idx_move_out. destruct (memb x (sp_sidx s0)); [|discriminate]. ss. destruct (memb x (sp_didx s0)); [discriminate|]. intros [= <-]. constructor; auto. }
  assert (S3 : Same s2 s3). { eapply each_same; [|exact E3]. intros s0 x s1. unfold restore_arb. destruct (_ || _); [|intros [= <-]; apply same_refl]. destruct (find_pair _ _ _); intros [= <-]; (constructor; auto; intros y; ss; rewrite upd_spec; destruct (Nat.eqb_spec y x) as [->|]; auto). }
  assert (S4 : Same s3 s'). { eapply each_same; [|exact E4]. intros s0 x s1. unfold restore_con. destruct (_ || _); intros [= <-]; (constructor; auto). }
  eapply same_trans; [exact S2|]. eapply same_trans; eauto.
Qed.

(** [t] is locked, [u] is what it becomes when the roused bodies are activated *)
Definition base t : Sp := set_roused (set_locked t 0) [].
Definition Rel t u : Prop := each space_activate (base t) (sp_roused t) = Some u.
Lemma each_act_same l : forall s s', sp_locked s = 0 -> each space_activate s l = Some s' -> Same s s'.
Proof.
  induction l as [|x l IH]; intros s s' Z E; cbn [each] in E; [injection E as <-; apply same_refl|]. destruct (space_activate s x) as [s1|] eqn:E1; [|discriminate]. assert (S1 := act_same _ _ _ Z E1). eapply same_trans; [exact S1|]. apply IH; auto. now rewrite (z_lk _ _ S1).
Qed.
Lemma each_act_wr B L l : forall s, likeB B (sp_b s) -> sp_locked s = 0 -> each space_activate (wr B L s) l = omap (wr B L) (each space_activate s l).
Proof.
  induction l as [|x l IH]; intros s K Z; cbn [each]; [reflexivity|]. rewrite act_wr by auto. destruct (space_activate s x) as [s1|] eqn:E1; cbn [omap]; [|reflexivity]. assert (S1 := act_same _ _ _ Z E1). apply IH; [now rewrite (z_b _ _ S1)|now rewrite (z_lk _ _ S1)].
Qed.
Lemma rel_same t u : Rel t u -> Same (base t) u. Proof. intros R. now apply (each_act_same (sp_roused t)). Qed.
Lemma rel_wr t u B L : Rel t u -> likeB B (sp_b t) -> Rel (wr B L t) (wr B L u).
Proof.
  intros R K. unfold Rel in *. change (sp_roused (wr B L t)) with (sp_roused t). change (base (wr B L t)) with (wr B L (base t)). rewrite each_act_wr; auto. now rewrite R.
Qed.
Lemma each_app (f : Sp -> nat -> option Sp) l m : forall s, each f s (l ++ m) = match each f s l with Some s' => each f s' m | None => None end.
Proof. induction l as [|x l IH]; intros s; cbn [app each]; [reflexivity|]. destruct (f s x); auto. Qed.

Lemma rel_upd t u b (h : SBody T -> SBody T) : Rel t u -> (forall y, sb_kind (h y) = sb_kind y /\ sb_shapes (h y) = sb_shapes y /\ sb_arbs (h y) = sb_arbs y /\ sb_cons (h y) = sb_cons y) -> Rel (upd_b t b (h (bod t b))) (upd_b u b (h (bod u b))).
Proof.
  intros R Kh. assert (S := rel_same _ _ R). assert (Eb : sp_b u = sp_b t) by apply S. unfold bod. rewrite Eb.
  assert (D : forall s : Sp, sp_b s = sp_b t -> upd_b s b (h (sp_b t b)) = wr (upd (sp_b t) b (h (sp_b t b))) (sp_sleep s) s). { intros s E. unfold upd_b, wr. rewrite E. now destruct s. }
  rewrite (D t eq_refl), (D u Eb). rewrite (z_sl _ _ S). apply rel_wr; auto. intros y. rewrite upd_spec. destruct (Nat.eqb_spec y b) as [->|]; auto.
Qed.
Lemma rel_wake t u y u' : Rel t u -> sp_locked t <> 0 -> ~ In y (sp_roused t) -> wake_one u y = Some u' ->
  exists t', wake_one t y = Some t' /\ Rel t' u' /\ sp_roused t' = sp_roused t ++ [y] /\ sp_b t' = upd (sp_b t) y (b_next (b_root (b_idle (bod t y) t0) None) None) /\
   t' = set_roused (upd_b t y (b_next (b_root (b_idle (bod t y) t0) None) None)) (sp_roused t ++ [y]).
Proof.
  intros R LK NI E. unfold wake_one in *. assert (R1 := rel_upd t u y (fun z => b_next (b_root (b_idle z t0) None) None) R (fun y => conj eq_refl (conj eq_refl (conj eq_refl eq_refl)))). cbv beta in R1.
  set (t1 := upd_b t y _) in *. set (u1 := upd_b u y _) in *. unfold space_activate at 1. change (sp_locked t1) with (sp_locked t). apply Nat.eqb_neq in LK. rewrite LK. cbn [negb]. cbv iota. change (sp_roused t1) with (sp_roused t). apply memb_false in NI. rewrite NI.
  eexists. split; [reflexivity|]. splits; auto. unfold Rel. ss. change (base (set_roused t1 (sp_roused t ++ [y]))) with (base t1). rewrite each_app. unfold Rel in R1. change (sp_roused t1) with (sp_roused t) in R1. rewrite R1. cbn [each]. now rewrite E.
Qed.
Lemma rel_wakes l : forall t u u', Rel t u -> sp_locked t <> 0 -> NoDup l -> (forall y, In y l -> ~ In y (sp_roused t)) -> each wake_one u l = Some u' ->
  exists t', each wake_one t l = Some t' /\ Rel t' u' /\ sp_roused t' = sp_roused t ++ l /\ sp_locked t' = sp_locked t /\ (forall y, root t' y = if memb y l then None else root t y).
Proof.
  induction l as [|y l IH]; intros t u u' R LK ND DJ E; cbn [each] in *.
  - injection E as <-. exists t. rewrite app_nil_r. splits; auto.
  - apply NoDup_cons_iff in ND as [N1 N2]. destruct (wake_one u y) as [u1|] eqn:E1; [|discriminate]. destruct (rel_wake t u y u1 R LK (DJ y (or_introl eq_refl)) E1) as (t1 & F1 & R1 & Ro & Bt & Dt). rewrite F1.
    assert (L1 : sp_locked t1 = sp_locked t) by (rewrite Dt; reflexivity).
    destruct (IH t1 u1 u' R1) as (t' & F & R' & Ro' & Lk' & Rt'); auto; [congruence| |].
    + intros z Hz. rewrite Ro, In_snoc. intros [D|D]; [apply (DJ z (or_intror Hz) D)|]. subst. auto.
    + exists t'. splits; auto; [rewrite Ro', Ro, <- app_assoc; reflexivity|congruence|]. intros z. rewrite Rt'. cbn [memb existsb]. fold (memb z l). unfold root. rewrite Bt, upd_spec. destruct (Nat.eqb_spec z y) as [->|]; cbn [orb]; [|reflexivity]. now destruct (memb y l).
Qed.
Lemma rel_touch b l : forall t u, Rel t u -> exists t', each (touch_idle b) t l = Some t' /\ (exists u', each (touch_idle b) u l = Some u' /\ Rel t' u') /\ sp_roused t' = sp_roused t /\ sp_locked t' = sp_locked t /\ (forall y, root t' y = root t y).
Proof.
  induction l as [|x l IH]; intros t u R; cbn [each]; [exists t; splits; eauto|]. assert (S := rel_same _ _ R). unfold touch_idle at 1 3.
  assert (EO : arb_other u b x = arb_other t b x). { unfold arb_other. destruct (z_a _ _ S x) as [-> ->]. reflexivity. } rewrite EO. set (o := arb_other t b x).
  assert (EK : is_stat u o = is_stat t o). { unfold is_stat, kind. rewrite (z_b _ _ S). reflexivity. } rewrite EK. destruct (is_stat t o); [apply IH; auto|].
  assert (R1 := rel_upd t u o (fun z => b_idle z t0) R (fun y => conj eq_refl (conj eq_refl (conj eq_refl eq_refl)))). cbv beta in R1. destruct (IH _ _ R1) as (t' & F & Q & Ro & Lk & Rt). exists t'. splits; auto.
  intros y. rewrite Rt. unfold root. ss. rewrite upd_spec. now destruct (Nat.eqb_spec y o) as [->|].
Qed.
Lemma members_same s s' n : sp_b s' = sp_b s -> forall p, members n s' p = members n s p.
Proof. intros E. induction n as [|n IH]; intros [b|]; cbn [members]; auto. unfold bod. rewrite E, IH. reflexivity. Qed.
Lemma rel_activate t u b : Rel t u -> sp_locked t <> 0 -> Core u [] -> NoDup (sp_roused t) -> (forall y, In y (sp_roused t) -> root t y = None) ->
  exists t' u', activate t b = Some t' /\ activate u b = Some u' /\ Rel t' u' /\ sp_locked t' = sp_locked t /\ Core u' [] /\ NoDup (sp_roused t') /\ (forall y, In y (sp_roused t') -> root t' y = None) /\
    (forall y, In y (sp_roused t') <-> In y (sp_roused t) \/ (root t y <> None /\ root t' y = None)) /\ (forall y, root t' y = root t y \/ root t' y = None).
Proof.
  intros R LK I ND RN. destruct (activate_ok u [] b I) as (u' & E & I' & _). assert (S := rel_same _ _ R). assert (E0 := E). unfold activate in E. unfold activate at 1.
  assert (EK : is_dyn u b = is_dyn t b) by (unfold is_dyn, kind; rewrite (z_b _ _ S); reflexivity). rewrite EK in E. destruct (is_dyn t b) eqn:KD; cbn [negb] in *.
  2:{ injection E as <-. exists t, u. splits; auto. intros y. split; [auto|]. intros [D|[D1 D2]]; tauto. }
  assert (R1 := rel_upd t u b (fun z => b_idle z t0) R (fun y => conj eq_refl (conj eq_refl (conj eq_refl eq_refl)))). cbv beta in R1. assert (RT1 : forall y, root (upd_b t b (b_idle (bod t b) t0)) y = root t y). { intros y. unfold root. ss. rewrite upd_spec. now destruct (Nat.eqb_spec y b) as [->|]. }
  assert (I1 : Core (upd_b u b (b_idle (bod u b) t0)) []) by now apply idle_core.
  set (t1 := upd_b t b _) in *. set (u1 := upd_b u b _) in *. assert (S1 := rel_same _ _ R1).
  assert (MID : forall u2, match sb_root (bod u1 b) with None => Some u1 | Some r => if sleeping u1 r then match members (sp_nb u1) u1 (Some r) with Some l => match each wake_one u1 l with Some s => Some (set_sleep s (del r (sp_sleep s))) | None => None end | None => None end else Some u1 end = Some u2 ->
    exists t2, match sb_root (bod t1 b) with None => Some t1 | Some r => if sleeping t1 r then match members (sp_nb t1) t1 (Some r) with Some l => match each wake_one t1 l with Some s => Some (set_sleep s (del r (sp_sleep s))) | None => None end | None => None end else Some t1 end = Some t2 /\ Rel t2 u2 /\ sp_locked t2 = sp_locked t /\
      NoDup (sp_roused t2) /\ (forall y, In y (sp_roused t2) -> root t2 y = None) /\ (forall y, In y (sp_roused t2) <-> In y (sp_roused t) \/ (root t y <> None /\ root t2 y = None)) /\ (forall y, root t2 y = root t y \/ root t2 y = None)).
  { intros u2. assert (EB : bod u1 b = bod t1 b) by (unfold bod; rewrite (z_b _ _ S1); reflexivity). rewrite EB. destruct (sb_root (bod t1 b)) as [r|] eqn:ER.
    2:{ intros [= <-]. exists t1. splits; auto; try (intros y; rewrite RT1; auto; fail). intros y. rewrite RT1. split; [auto|]. intros [D|[D1 D2]]; tauto. }
    assert (ES : sleeping u1 r = sleeping t1 r) by (unfold sleeping, bod; rewrite (z_b _ _ S1); reflexivity). rewrite ES. destruct (sleeping t1 r) eqn:SR.
    2:{ intros [= <-]. exists t1. splits; auto; try (intros y; rewrite RT1; auto; fail). intros y. rewrite RT1. split; [auto|]. intros [D|[D1 D2]]; tauto. }
    rewrite (members_same t1 u1) by (rewrite (z_b _ _ S1); reflexivity). rewrite (z_nb _ _ S1). change (sp_nb (base t1)) with (sp_nb t1).
    destruct (members (sp_nb t1) t1 (Some r)) as [l|] eqn:M; [|discriminate]. destruct (each wake_one u1 l) as [u3|] eqn:W; [|discriminate]. intros [= <-].
    assert (IR : In r (sp_sleep u1)). { assert (X : root u1 b = Some r) by (unfold root; fold (bod u1 b); congruence). now apply (i_root _ _ I1) in X. }
    destruct (comp_of u1 [] r I1 IR) as (l' & K & LEN & _). assert (l' = l). { assert (X := members_chain u1 l' (Some r) (sp_nb u1) (k_chain _ _ _ K) LEN). rewrite (members_same t1 u1) in X by (rewrite (z_b _ _ S1); reflexivity). rewrite (z_nb _ _ S1) in X. change (sp_nb (base t1)) with (sp_nb t1) in X. congruence. } subst l'.
    assert (KR : forall y, In y l <-> root t y = Some r). { intros y. rewrite (k_in _ _ _ K). rewrite <- RT1. unfold root. rewrite (z_b _ _ S1). reflexivity. }
    destruct (rel_wakes l t1 u1 u3 R1) as (t3 & W3 & R3 & Ro3 & Lk3 & Rt3); auto; [apply K| |]. { intros y Hy Hr. apply KR in Hy. rewrite (RN y Hr) in Hy. discriminate. }
    rewrite W3. exists (set_sleep t3 (del r (sp_sleep t3))). change (sp_roused t1) with (sp_roused t) in Ro3. split; [reflexivity|].
    assert (Rt4 : forall y, root (set_sleep t3 (del r (sp_sleep t3))) y = if memb y l then None else root t y) by (intros y; change (root t3 y = if memb y l then None else root t y); rewrite Rt3, RT1; reflexivity).
    splits.
    - assert (S3 := rel_same _ _ R3). assert (D : forall s : Sp, sp_b s = sp_b t3 -> set_sleep s (del r (sp_sleep t3)) = wr (sp_b t3) (del r (sp_sleep t3)) s) by (intros s E1; unfold wr; rewrite <- E1; now destruct s).
      rewrite (z_sl _ _ S3). change (sp_sleep (base t3)) with (sp_sleep t3). rewrite (D t3 eq_refl), (D u3 (z_b _ _ S3)). apply rel_wr; auto. intros y; auto.
    - exact Lk3.
    - change (NoDup (sp_roused t3)). rewrite Ro3. apply NoDup_app_intro; auto; [apply K|]. intros y Y1 Y2. apply KR in Y2. rewrite (RN y Y1) in Y2. discriminate.
    - intros y Hy. change (In y (sp_roused t3)) in Hy. rewrite Ro3, in_app_iff in Hy. rewrite Rt4. destruct (memb_spec y l); auto. destruct Hy as [Hy|Hy]; [now apply RN|tauto].
    - intros y. change (In y (sp_roused t3) <-> In y (sp_roused t) \/ root t y <> None /\ root (set_sleep t3 (del r (sp_sleep t3))) y = None). rewrite Ro3, in_app_iff, Rt4. destruct (memb_spec y l) as [Q|Q].
      + apply KR in Q as Q'. split; auto. intros _. right. split; [congruence|auto].
      + tauto.
    - intros y. rewrite Rt4. destruct (memb y l); auto. }
  destruct (match sb_root (bod u1 b) with None => Some u1 | Some r => _ end) as [u2|] eqn:EM; [|discriminate]. destruct (MID u2 eq_refl) as (t2 & F2 & R2 & Lk2 & ND2 & RN2 & RO2 & RT2). rewrite F2.
  assert (S2 := rel_same _ _ R2). destruct (rel_touch b (sb_arbs (bod t2 b)) t2 u2 R2) as (t3 & F3 & (u3 & G3 & R3) & Ro3 & Lk3 & Rt3). rewrite F3.
  assert (EA : sb_arbs (bod u2 b) = sb_arbs (bod t2 b)) by (unfold bod; rewrite (z_b _ _ S2); reflexivity). rewrite EA, G3 in E. injection E as <-.
  exists t3, u3. split; [reflexivity|]. split; [exact E0|]. split; [exact R3|]. split; [congruence|]. split; [exact I'|]. rewrite Ro3. split; [exact ND2|]. split; [intros y Hy; rewrite Rt3; auto|]. split; intros y; rewrite Rt3; auto.
Qed.
(** any number of activations under a lock *)
Lemma rel_acts l : forall t u, Rel t u -> sp_locked t <> 0 -> Core u [] -> NoDup (sp_roused t) -> (forall y, In y (sp_roused t) -> root t y = None) ->
  exists t' u', each activate t l = Some t' /\ each activate u l = Some u' /\ Rel t' u' /\ sp_locked t' = sp_locked t /\ Core u' [] /\ NoDup (sp_roused t') /\ (forall y, In y (sp_roused t') -> root t' y = None) /\
    (forall y, In y (sp_roused t') <-> In y (sp_roused t) \/ (root t y <> None /\ root t' y = None)) /\ (forall y, root t' y = root t y \/ root t' y = None).
Proof.
  induction l as [|b l IH]; intros t u R LK I ND RN; cbn [each].
  - exists t, u. splits; auto. intros y. split; [auto|]. intros [D|[D1 D2]]; tauto.
  - destruct (rel_activate t u b R LK I ND RN) as (t1 & u1 & E1 & F1 & R1 & L1 & I1 & N1 & RN1 & O1 & RT1). rewrite E1, F1.
    destruct (IH t1 u1 R1) as (t2 & u2 & E2 & F2 & R2 & L2 & I2 & N2 & RN2 & O2 & RT2); auto; [congruence|]. exists t2, u2. split; [exact E2|]. split; [exact F2|]. split; [exact R2|]. split; [congruence|]. split; [exact I2|]. split; [exact N2|]. split; [exact RN2|].
    split.
    + intros y. rewrite O2, O1. specialize (RT1 y). specialize (RT2 y). destruct (root t y), (root t1 y), (root t2 y); intuition congruence.
    + intros y. destruct (RT2 y) as [->|]; auto.
Qed.
(** while the space is locked only the bodies' memory and the list of components change, and the list of roused bodies grows *)
Definition Quiet t t' : Prop := exists B L l, t' = set_roused (wr B L t) (sp_roused t ++ l).
Lemma quiet_refl t : Quiet t t. Proof. exists (sp_b t), (sp_sleep t), []. rewrite app_nil_r. now destruct t. Qed.
Lemma quiet_trans t t1 t2 : Quiet t t1 -> Quiet t1 t2 -> Quiet t t2.
Proof. intros (B & L & R & ->) (B' & L' & R' & ->). exists B', L', (R ++ R'). ss. rewrite <- app_assoc. reflexivity. Qed.
Lemma quiet_lock t t' : Quiet t t' -> sp_locked t' = sp_locked t. Proof. now intros (B & L & R & ->). Qed.
Lemma each_quiet (f : Sp -> nat -> option Sp) l : (forall t x t', sp_locked t <> 0 -> f t x = Some t' -> Quiet t t') -> forall t t', sp_locked t <> 0 -> each f t l = Some t' -> Quiet t t'.
Proof. intros G. induction l as [|x l IH]; intros t t' Z E; cbn [each] in E; [injection E as <-; apply quiet_refl|]. destruct (f t x) as [t1|] eqn:E1; [|discriminate]. assert (Q := G _ _ _ Z E1). eapply quiet_trans; [exact Q|]. apply IH; auto. now rewrite (quiet_lock _ _ Q). Qed.
Lemma quiet_upd t b X : Quiet t (upd_b t b X).
Proof. exists (upd (sp_b t) b X), (sp_sleep t), []. rewrite app_nil_r. now destruct t. Qed.
Lemma act_quiet t b t' : sp_locked t <> 0 -> activate t b = Some t' -> Quiet t t'.
Proof.
  intros Z. unfold activate. destruct (negb (is_dyn t b)); [intros [= <-]; apply quiet_refl|].
  assert (Q1 := quiet_upd t b (b_idle (bod t b) t0)). set (t1 := upd_b t b _) in *. assert (Z1 : sp_locked t1 <> 0) by exact Z. cbv zeta.
  assert (W : forall t x t', sp_locked t <> 0 -> wake_one t x = Some t' -> Quiet t t').
  { clear. intros t x t' Z. unfold wake_one, space_activate. ss. apply Nat.eqb_neq in Z. rewrite Z. cbn [negb]. cbv iota. intros [= <-]. eapply quiet_trans; [apply (quiet_upd t x (b_next (b_root (b_idle (sp_b t x) t0) None) None))|]. unfold upd_b. ss. destruct (memb x (sp_roused t)); [apply quiet_refl|]. eexists _, _, _. unfold wr. ss. reflexivity. }
  assert (MID : forall t2, match sb_root (bod t1 b) with None => Some t1 | Some r => if sleeping t1 r then match members (sp_nb t1) t1 (Some r) with Some l => match each wake_one t1 l with Some s => Some (set_sleep s (del r (sp_sleep s))) | None => None end | None => None end else Some t1 end = Some t2 -> Quiet t1 t2).
  { intros t2. destruct (sb_root (bod t1 b)) as [r|]; [|intros [= <-]; apply quiet_refl]. destruct (sleeping t1 r); [|intros [= <-]; apply quiet_refl]. destruct (members (sp_nb t1) t1 (Some r)) as [l|]; [|discriminate]. destruct (each wake_one t1 l) as [t3|] eqn:E3; [|discriminate]. intros [= <-].
    eapply quiet_trans; [exact (each_quiet wake_one l W t1 t3 Z1 E3)|]. exists (sp_b t3), (del r (sp_sleep t3)), []. rewrite app_nil_r. unfold wr. now destruct t3. }
  destruct (match sb_root (bod t1 b) with None => Some t1 | Some r => _ end) as [t2|]; [|discriminate]. specialize (MID t2 eq_refl). intros E.
  eapply quiet_trans; [exact Q1|]. eapply quiet_trans; [exact MID|]. eapply (each_quiet (touch_idle b)); [|rewrite (quiet_lock _ _ MID); exact Z1|exact E]. intros t3 x t4 _. unfold touch_idle. destruct (is_stat t3 _); intros [= <-]; [apply quiet_refl|apply quiet_upd].
Qed.
(** the list of roused bodies and the lock counter are not read by an unlocked activation *)
Lemma each_ro (f : Sp -> nat -> option Sp) R l : (forall s x, sp_locked s = 0 -> f (set_roused s R) x = omap (fun s => set_roused s R) (f s x) /\ forall s', f s x = Some s' -> sp_locked s' = 0) ->
  forall s, sp_locked s = 0 -> each f (set_roused s R) l = omap (fun s => set_roused s R) (each f s l).
Proof. intros G. induction l as [|x l IH]; intros s Z; cbn [each]; [reflexivity|]. destruct (G s x Z) as [-> G2]. destruct (f s x) as [s1|]; cbn [omap]; [|reflexivity]. apply IH. now apply G2. Qed.
Lemma act_ro R s b : sp_locked s = 0 -> space_activate (set_roused s R) b = omap (fun s => set_roused s R) (space_activate s b).
Proof.
  intros Z. unfold space_activate. change (sp_locked (set_roused s R)) with (sp_locked s). rewrite Z. cbn [Nat.eqb negb]. cbv iota. set (s1 := set_dyn s (sp_dyn s ++ [b])). change (set_dyn (set_roused s R) (sp_dyn (set_roused s R) ++ [b])) with (set_roused s1 R).
  change (bod (set_roused s1 R) b) with (bod s1 b). rewrite each_ro; auto.
  2:{ clear. intros s x Z. unfold idx_move_out. ss. split; [destruct (memb x (sp_sidx s)), (memb x (sp_didx s)); reflexivity|]. intros s'. destruct (memb x (sp_sidx s)), (memb x (sp_didx s)); try discriminate. now intros [= <-]. }
  destruct (each idx_move_out s1 _) as [s2|] eqn:E2; cbn [omap]; [|reflexivity].
  assert (Z2 : sp_locked s2 = 0). { clear - E2 Z. change (sp_locked s1 = 0) in Z. clearbody s1. revert E2 Z. generalize (sb_shapes (bod s1 b)). intros l. revert s1. induction l as [|x l IH]; intros s1 E Z; cbn [each] in E; [now injection E as <-|]. destruct (idx_move_out s1 x) as [s3|] eqn:E3; [|discriminate]. apply (IH s3); auto. unfold idx_move_out in E3. destruct (memb x (sp_sidx s1)); [|discriminate]. revert E3. ss. destruct (memb x (sp_didx s1)); [discriminate|]. now intros [= <-]. }
  change (bod (set_roused s2 R) b) with (bod s2 b). 
  assert (GA : forall s x, sp_locked s = 0 -> restore_arb b (set_roused s R) x = omap (fun s => set_roused s R) (restore_arb b s x) /\ forall s', restore_arb b s x = Some s' -> sp_locked s' = 0).
  { clear. intros s x Z. unfold restore_arb. change (sp_a (set_roused s R)) with (sp_a s). change (is_stat (set_roused s R)) with (is_stat s). destruct (_ || _); [|split; [reflexivity|now intros s' [= <-]]]. change (find_pair (set_roused s R) ?a ?c) with (find_pair s a c). destruct (find_pair s _ _); split; try reflexivity; now intros s' [= <-]. }
  rewrite (each_ro _ R _ GA); auto. destruct (each (restore_arb b) s2 _) as [s3|] eqn:E3; cbn [omap]; [|reflexivity].
  assert (Z3 : sp_locked s3 = 0). { clear - E3 Z2 GA. revert E3 Z2. generalize (sb_arbs (bod s2 b)). intros l. revert s2. induction l as [|x l IH]; intros s1 E Z; cbn [each] in E; [now injection E as <-|]. destruct (restore_arb b s1 x) as [s4|] eqn:E4; [|discriminate]. apply (IH s4); auto. now apply (GA s1 x Z). }
  change (bod (set_roused s3 R) b) with (bod s3 b). rewrite each_ro; auto. clear. intros s x Z. unfold restore_con. change (sp_c (set_roused s R)) with (sp_c s). change (is_stat (set_roused s R)) with (is_stat s). destruct (_ || _); (split; [reflexivity|now intros s' [= <-]]).
Qed.
Lemma unlock_rel t u : Rel t u -> sp_locked t = 1 -> unlock t = Some (set_roused u []).
Proof.
  intros R Z. unfold unlock. rewrite Z. cbn [pred]. ss. cbn [Nat.eqb negb]. cbv iota. change (sp_roused (set_locked t 0)) with (sp_roused t).
  replace (set_locked t 0) with (set_roused (base t) (sp_roused t)) by now destruct t. rewrite each_ro; auto.
  - unfold Rel in R. rewrite R. cbn [omap]. reflexivity.
  - intros s x Z1. split; [now apply act_ro|]. intros s' E. now rewrite (z_lk _ _ (act_same _ _ _ Z1 E)).
Qed.
Lemma act_dyn s b s' : sp_locked s = 0 -> space_activate s b = Some s' -> sp_dyn s' = sp_dyn s ++ [b].
Proof.
  intros Z. unfold space_activate. rewrite Z. cbn [Nat.eqb negb]. cbv iota.
  assert (G : forall (f : Sp -> nat -> option Sp) l s s', (forall s x s', f s x = Some s' -> sp_dyn s' = sp_dyn s) -> each f s l = Some s' -> sp_dyn s' = sp_dyn s).
  { clear. intros f l s s' G. revert s. induction l as [|x l IH]; intros s E; cbn [each] in E; [now injection E as <-|]. destruct (f s x) as [s1|] eqn:E1; [|discriminate]. rewrite (IH s1 E). exact (G _ _ _ E1). }
  destruct (each idx_move_out _ _) as [s2|] eqn:E2; [|discriminate]. destruct (each (restore_arb b) s2 _) as [s3|] eqn:E3; [|discriminate]. intros E4.
  apply G in E2, E3, E4; [rewrite E4, E3, E2; reflexivity| | |].
  - intros s0 x s1. unfold restore_con. destruct (_ || _); intros [= <-]; reflexivity.
  - intros s0 x s1. unfold restore_arb. destruct (_ || _); [destruct (find_pair _ _ _)|]; intros [= <-]; reflexivity.
  - intros s0 x s1. unfold idx_move_out. destruct (memb x (sp_sidx s0)); [|discriminate]. ss. destruct (memb x (sp_didx s0)); [discriminate|]. now intros [= <-].
Qed.
Lemma rel_dyn t u : Rel t u -> sp_dyn u = sp_dyn t ++ sp_roused t.
Proof.
  unfold Rel. change (sp_dyn t) with (sp_dyn (base t)). assert (Z : sp_locked (base t) = 0) by reflexivity. revert Z. generalize (base t) (sp_roused t). intros s l. revert s. induction l as [|x l IH]; intros s Z E; cbn [each] in E; [injection E as <-; now rewrite app_nil_r|].
  destruct (space_activate s x) as [s1|] eqn:E1; [|discriminate]. assert (S1 := act_same _ _ _ Z E1). rewrite (IH s1); auto; [|now rewrite (z_lk _ _ S1)]. rewrite (act_dyn _ _ _ Z E1), <- app_assoc. reflexivity.
Qed.
End Cb.
