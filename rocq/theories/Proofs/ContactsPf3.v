(** Histories of contact memory *)
From Coq Require Import ZArith Arith Bool List Lia.
From Verif Require Import Num SpecContacts.
From Verif.Model Require Import Vector Solver Contacts.
From Verif.Proofs Require Import ContactsPf ContactsPf2.
Import ListNotations.
Local Open Scope nat_scope.

Section Pf.
Context {T : Type} `{Num T}.
Notation Con := (Contact T).
Implicit Types s : CSpace T.

Lemma forget_ok s k a : inv s -> refines s k -> inv (cs_forget s a) /\ refines (cs_forget s a) (happen k (Gone a)).
Proof.
  intros J R. split; [apply inv_arb; [exact J|exact Logic.I]|]. apply refines_arb; [exact R|exact Logic.I].
Qed.
Lemma filter_ok s k idle : inv s -> refines s k -> inv (cs_filter s idle) /\ refines (cs_filter s idle) (happen k (Sweep idle)).
Proof.
  intros J R. destruct R as (Nw & Ag).
  assert (Sub : forall a x, k_arbs (cs_filter s idle) a = Some x -> k_arbs s a = Some x).
  { intros a x. unfold cs_filter, with_arbs. cbn [k_arbs]. destruct (k_arbs s a) as [y|]; [|discriminate]. destruct (x_cached y); [|auto]. destruct (idle a); [auto|].
    destruct (persistence <=? (k_stamp s - x_stamp y)); [discriminate|auto]. }
  split.
  - destruct J as (J & C & Hd).
    assert (Rf : forall a b o n x, ref (cs_filter s idle) a b o n x -> ref s a b o n x).
    { intros a b o n x (A & B). split; [now apply Sub|exact B]. }
    split; [|split; [exact C|exact Hd]]. constructor.
    + exact (i_head s J).
    + exact (i_buf s J).
    + intros b c o m y R. exact (i_ref s J _ _ _ _ _ (Rf _ _ _ _ _ R)).
    + intros b c o m y b' o' m' y' R R'. exact (i_dis s J _ _ _ _ _ _ _ _ _ (Rf _ _ _ _ _ R) (Rf _ _ _ _ _ R')).
    + intros b y A. exact (i_arb s J b y (Sub b y A)).
  - split; [exact Nw|]. intros a. specialize (Ag a). unfold cs_filter, with_arbs. cbn [k_arbs happen bk_note bk_now]. unfold agrees in Ag.
    destruct (k_arbs s a) as [x|] eqn:X; destruct (bk_note k a) as [n|] eqn:N; try contradiction; [|exact Logic.I].
    destruct Ag as (A & B & F). rewrite B, Nw, A. destruct (nt_stored n) eqn:St; cbn [negb orb].
    { cbn. now rewrite B, St. }
    destruct (idle a); cbn [orb]; [cbn; now rewrite B, St|].
    destruct (persistence <=? bk_now k - nt_stamp n) eqn:L.
    + apply Nat.leb_le in L. rewrite (proj2 (Nat.ltb_ge (bk_now k - nt_stamp n) 3)) by exact L. exact Logic.I.
    + apply Nat.leb_gt in L. rewrite (proj2 (Nat.ltb_lt (bk_now k - nt_stamp n) 3)) by exact L. cbn. now rewrite B, St.
Qed.
Lemma tick_ok s k : inv s -> refines s k -> timely k Begin -> inv (cs_tick s) /\ refines (cs_tick s) (happen k Begin).
Proof.
  intros (J & C & Hd) (Nw & Ag) Ti. unfold cs_tick. set (s1 := mkCS _ _ _ _ _).
  assert (J1 : inv0 s1).
  { constructor.
    - exact (i_head s J).
    - intros b L. destruct (i_buf s J b L) as (A & B & D). repeat split; [cbn; lia|exact B|exact D].
    - intros a b o n x R. assert (R' : ref s a b o n x) by exact R. destruct (i_ref s J _ _ _ _ _ R') as (A & B & D & E & F).
      repeat split; try assumption. cbn. destruct R' as (Ra & Rm & Rn & Rp). specialize (Ag a). rewrite Ra in Ag.
      unfold agrees in Ag. destruct (bk_note k a) as [nt|] eqn:N; [|contradiction]. destruct Ag as (G1 & G2 & G3).
      rewrite G1, Nw. apply (Ti a nt N).
      + rewrite F in G2. now destruct (nt_stored nt).
      + intros Q. rewrite Q in G3. apply F2_len in G3. rewrite (read_len s a x J Ra) in G3. cbn in G3. lia.
    - intros a b o n x a' o' n' x' R R'. exact (i_dis s J a b o n x a' o' n' x' R R').
    - exact (i_arb s J). }
  destruct (push_fresh_ok s1 J1) as (h & Hh & J2 & Sh & Nh & Ks & Ka & Rd). split.
  - split; [exact J2|]. split; [intros h' E; rewrite Hh in E; injection E as <-; now rewrite Sh, Ks|]. intros _. rewrite Hh. discriminate.
  - split; [rewrite Ks; cbn; now rewrite Nw|]. intros a. rewrite Ka. specialize (Ag a). cbn. unfold agrees in *.
    destruct (k_arbs s a) as [x|] eqn:X; [|exact Ag]. destruct (bk_note k a); [|contradiction]. rewrite (Rd a x X). exact Ag.
Qed.

Lemma event_ok s k e : inv s -> refines s k -> sane k e -> timely k e ->
  exists s2, cs_event s e = Some s2 /\ inv s2 /\ refines s2 (happen k e).
Proof.
  intros J R S Ti. destruct e as [|a pa pb found ok|a|a|a l|a|idle]; cbn [cs_event].
  - exists (cs_tick s). split; [reflexivity|]. now apply tick_ok.
  - destruct S as (S1 & S2). now apply collide_ok.
  - now apply restore_ok.
  - exists (cs_store s a). split; [reflexivity|]. now apply store_ok.
  - exists (cs_write s a l). split; [reflexivity|]. now apply write_ok.
  - exists (cs_forget s a). split; [reflexivity|]. now apply forget_ok.
  - exists (cs_filter s idle). split; [reflexivity|]. now apply filter_ok.
Qed.
Lemma inv_new : inv (@cs_new T _) /\ refines (@cs_new T _) blank.
Proof.
  split; [|split; [reflexivity|]; intros a; exact Logic.I]. split; [|split; [intros h E; discriminate|cbn; lia]].
  constructor; cbn.
  - discriminate.
  - lia.
  - intros a b o n x (E & _). discriminate.
  - intros a b o n x a' o' n' x' (E & _). discriminate.
  - discriminate.
Qed.
Lemma run_ok es : forall s k, inv s -> refines s k -> holds_along sane k es -> holds_along timely k es ->
  exists s2, cs_run es s = Some s2 /\ inv s2 /\ refines s2 (tell es k).
Proof.
  induction es as [|e es IH]; intros s k J R S Ti; [now exists s|]. destruct S as (S & S'). destruct Ti as (Ti & Ti').
  destruct (event_ok s k e J R S Ti) as (s1 & E & J1 & R1). cbn [cs_run tell fold_left]. rewrite E. now apply IH.
Qed.

(** ** histories of whole steps are timely *)
Definition recent (d : nat) (k : book T) : Prop :=
  forall a n, bk_note k a = Some n -> nt_stored n = false -> nt_contacts n <> [] -> bk_now k - nt_stamp n < d.
Lemma along_app P (es es' : list (event T)) : forall k, holds_along P k (es ++ es') <-> holds_along P k es /\ holds_along P (tell es k) es'.
Proof.
  induction es as [|e es IH]; intros k; cbn [app holds_along tell fold_left]; [tauto|]. rewrite IH. unfold tell. tauto.
Qed.
Lemma quiet_keeps d k e : 0 < d -> touching e \/ stirring e -> recent d k -> recent d (happen k e).
Proof.
  intros D Q R a n E St C. destruct e as [|a0 pa pb found ok|a0|a0|a0 l|a0|idle]; try (now destruct Q); cbn [happen] in *.
  - destruct found as [|r found]; [now apply (R a n)|]. cbn in *. destruct (a =? a0); [|now apply (R a n)].
    injection E as <-. cbn. lia.
  - destruct (bk_note k a0) as [n0|] eqn:E0; [|now apply (R a n)]. cbn in *. destruct (a =? a0); [|now apply (R a n)].
    injection E as <-. cbn. lia.
  - destruct (bk_note k a0) as [n0|] eqn:E0; [|now apply (R a n)]. cbn in *. destruct (a =? a0); [|now apply (R a n)].
    injection E as <-. discriminate.
  - destruct (bk_note k a0) as [n0|] eqn:E0; [|now apply (R a n)]. destruct (length l =? length (nt_contacts n0)) eqn:L; [|now apply (R a n)].
    cbn in *. destruct (a =? a0) eqn:Q0; [|now apply (R a n)]. apply Nat.eqb_eq in Q0. subst a0.
    injection E as <-. cbn in *. apply (R a n0); try assumption. intros Z. rewrite Z in L. apply Nat.eqb_eq in L. destruct l; [auto|discriminate].
  - cbn in *. destruct (a =? a0); [discriminate|now apply (R a n)].
Qed.
Lemma quiet_all d es : 0 < d -> Forall (fun e => touching e \/ stirring e) es -> forall k, recent d k -> recent d (tell es k) /\ holds_along timely k es.
Proof.
  intros D. induction 1 as [|e es Q _ IH]; intros k R; [split; [exact R|exact Logic.I]|]. cbn [tell fold_left holds_along].
  destruct (IH (happen k e) (quiet_keeps d k e D Q R)) as (A & B). split; [exact A|]. split; [|exact B].
  destruct e; try exact Logic.I. destruct Q as [[]|[]].
Qed.
Lemma steps_timely es : step_history es -> holds_along stored_when_idle blank es -> recent 3 (tell es blank) /\ holds_along timely (@blank T) es.
Proof.
  induction 1 as [|es ts ws idle rest _ IH Ht Hw Hr]; intros S; [split; [intros a n E; discriminate|exact Logic.I]|].
  apply along_app in S. destruct S as (S1 & S2). destruct (IH S1) as (R & Ti). clear IH S1.
  cbn [holds_along] in S2. destruct S2 as (_ & S2). rewrite app_assoc in S2. apply along_app in S2. destruct S2 as (_ & S2). cbn [holds_along] in S2.
  destruct S2 as (Sw & _).
  set (k0 := tell es blank) in *. set (k1 := happen k0 Begin) in *.
  assert (R1 : recent 4 k1) by (intros a n E St C; specialize (R a n E St C); change (S (bk_now k0) - nt_stamp n < 4); lia).
  assert (Q : Forall (fun e : event T => touching e \/ stirring e) (ts ++ ws)).
  { apply Forall_app. split; [apply (Forall_impl _ (fun e X => or_introl X) Ht)|apply (Forall_impl _ (fun e X => or_intror X) Hw)]. }
  destruct (quiet_all 4 (ts ++ ws) ltac:(lia) Q k1 R1) as (R2 & T2). set (k2 := tell (ts ++ ws) k1) in *.
  assert (R3 : recent 3 (happen k2 (Sweep idle))).
  { intros a n E St C. cbn [happen bk_note] in E. destruct (bk_note k2 a) as [n0|] eqn:N; [|discriminate].
    destruct (nt_stored n0 || idle a || (bk_now k2 - nt_stamp n0 <? 3)) eqn:O; [|discriminate]. injection E as <-.
    rewrite St in O. cbn [orb] in O. apply orb_true_iff in O. destruct O as [O|O].
    - destruct (Sw a n0 N O) as [X|X]; congruence.
    - apply Nat.ltb_lt in O. exact O. }
  destruct (quiet_all 3 rest ltac:(lia) (Forall_impl _ (fun e X => or_intror X) Hr) _ R3) as (R4 & T4).
  split.
  - unfold tell. rewrite fold_left_app. fold (tell es (@blank T)). fold k0. cbn [fold_left]. fold k1. rewrite app_assoc, fold_left_app.
    cbn [fold_left]. exact R4.
  - apply along_app. split; [exact Ti|]. cbn [holds_along]. split.
    + intros a n E St C. specialize (R a n E St C). fold k0. lia.
    + fold k0. fold k1. rewrite app_assoc. apply along_app. split; [exact T2|]. cbn [holds_along]. split; [exact Logic.I|exact T4].
Qed.
End Pf.
