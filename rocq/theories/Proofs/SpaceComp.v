(** Finding the components of idle bodies. *)
From Coq Require Import List Arith NArith Bool Lia Permutation FunctionalExtensionality Relations.
From Verif.Model Require Import HashSet Space.
From Verif.Proofs Require Import Util SpaceLib SpaceInv SpaceAct SpaceOps SpaceOps2 SpaceSleep.
Import ListNotations.

Section Comp.
Context {T : Type} `{Time T}.
Notation Sp := (Space T).
Implicit Types (s : Sp) (b x c r : nat).

(** bodies that share an active contact or a constraint *)
Definition adj s b o := (exists x, In x (arbl s b) /\ o = arb_other s b x) \/ (exists c, In c (conl s b) /\ o = con_other s b c).
Definition conn s : nat -> nat -> Prop := clos_refl_sym_trans nat (fun b o => adj s b o /\ kind s b = Dyn /\ kind s o = Dyn).
Definition neighbours s b := map (arb_other s b) (arbl s b) ++ map (con_other s b) (conl s b).
Lemma neighbours_adj s b o : In o (neighbours s b) <-> adj s b o.
Proof.
  unfold neighbours, adj. rewrite in_app_iff, !in_map_iff. split; (intros [(x & A & B)|(x & A & B)]; [left|right]; exists x; split; auto).
Qed.
Lemma arb_other_a s x : arb_other s (ba s x) x = bb s x.
Proof. unfold arb_other, ba, bb. now rewrite Nat.eqb_refl. Qed.
Lemma arb_other_b s x : ba s x <> bb s x -> arb_other s (bb s x) x = ba s x.
Proof. unfold arb_other, ba, bb. intros N. apply Nat.eqb_neq in N. now rewrite N. Qed.
Lemma adj_thr s P x : Core s P -> threaded s x -> adj s (ba s x) (bb s x) /\ adj s (bb s x) (ba s x).
Proof.
  intros I Tx. destruct (i_thr _ _ I _ _ Tx) as (_ & T1 & T2). destruct (i_live _ _ I x (or_intror Tx)) as (_ & _ & _ & _ & N).
  split; left; exists x; split; auto; [now rewrite arb_other_a|now rewrite arb_other_b].
Qed.
Lemma adj_con s P c : Core s P -> sc_in (sp_c s c) = true -> adj s (sc_a (sp_c s c)) (sc_b (sp_c s c)) /\ adj s (sc_b (sp_c s c)) (sc_a (sp_c s c)).
Proof.
  intros I Hc. destruct (i_con_ok _ _ I c Hc) as (N & _). split; right; exists c; (split; [apply (i_con _ _ I); auto|]); unfold con_other; [now rewrite Nat.eqb_refl|apply Nat.eqb_neq in N; now rewrite N].
Qed.
Lemma adj_inv s P b o : Core s P -> adj s b o -> (exists x, threaded s x /\ ((b = ba s x /\ o = bb s x) \/ (b = bb s x /\ o = ba s x))) \/
  (exists c, sc_in (sp_c s c) = true /\ ((b = sc_a (sp_c s c) /\ o = sc_b (sp_c s c)) \/ (b = sc_b (sp_c s c) /\ o = sc_a (sp_c s c)))).
Proof.
  intros I [(x & X & ->)|(c & X & ->)]; [left|right].
  - destruct (i_thr _ _ I _ _ X) as (E & T1 & T2). exists x. split; auto. destruct (i_live _ _ I x (or_intror T1)) as (_ & _ & _ & _ & N). destruct E as [-> | ->]; [rewrite arb_other_a|rewrite arb_other_b]; auto.
  - apply (i_con _ _ I) in X as [X E]. exists c. split; auto. destruct (i_con_ok _ _ I c X) as (N & _). unfold con_other. destruct E as [<- | <-]; [rewrite Nat.eqb_refl; auto|]. apply Nat.eqb_neq in N. rewrite N. auto.
Qed.
Lemma adj_sym s P b o : Core s P -> adj s b o -> adj s o b.
Proof.
  intros I A. destruct (adj_inv s P b o I A) as [(x & Tx & [[-> ->]|[-> ->]])|(c & Hc & [[-> ->]|[-> ->]])]; (eapply adj_thr || eapply adj_con); eauto.
Qed.

(** ** Flood fill *)
(** [s] is [s0] with the bodies [l] marked as the component of [r] *)
Record Marked s0 r (U : list nat) s (l : list nat) : Prop := {
  f_eq : s = set_b s0 (sp_b s); f_b : forall y, exists q n, sp_b s y = b_next (b_root (sp_b s0 y) q) n;
  f_out : forall y, ~ In y l -> sp_b s y = sp_b s0 y; f_in : forall y, In y l -> root s y = Some r;
  f_ch : l = [] \/ (exists t, l = r :: t /\ chain s (Some r) l); f_nd : NoDup l; f_U : incl l U }.
Definition Unm s0 (U : list nat) := NoDup U /\ forall b, In b U -> kind s0 b = Dyn /\ root s0 b = None /\ next s0 b = None /\ forall o, adj s0 b o -> kind s0 o = Dyn -> In o U.
Lemma marked_views s0 r U s l : Marked s0 r U s l -> (forall y, kind s y = kind s0 y /\ arbl s y = arbl s0 y /\ conl s y = conl s0 y /\ shl s y = shl s0 y /\ sb_in (sp_b s y) = sb_in (sp_b s0 y) /\ idle s y = idle s0 y).
Proof. intros M y. destruct (f_b _ _ _ _ _ M y) as (q & n & E). unfold kind, arbl, conl, shl, idle. rewrite E. splits; reflexivity. Qed.
Lemma marked_eq s0 r U s l : Marked s0 r U s l -> sp_a s = sp_a s0 /\ sp_c s = sp_c s0 /\ sp_s s = sp_s s0 /\ sp_dyn s = sp_dyn s0.
Proof. intros M. rewrite (f_eq _ _ _ _ _ M). splits; reflexivity. Qed.
Lemma flood_add s0 r U s l b : Unm s0 U -> Marked s0 r U s l -> In b U -> ~ In b l -> (l = [] -> b = r) ->
  exists l1, Marked s0 r U (component_add s r b) l1 /\ (forall y, In y l1 <-> y = b \/ In y l) /\ length l1 = S (length l).
Proof.
  intros [NU HU] M Ib Nb L0. destruct (HU b Ib) as (Kb & Rb & Xb & _).
  assert (Sb : sp_b s b = sp_b s0 b) by (apply (f_out _ _ _ _ _ M); auto).
  destruct (f_ch _ _ _ _ _ M) as [-> |(t & El & Ch)].
  - specialize (L0 eq_refl). subst b. exists [r]. splits; auto; [|cbn; intros y; split; [intros [?|[]]; auto|intros [?|[]]; auto]].
    unfold component_add. rewrite Nat.eqb_refl. constructor; ss.
    + rewrite (f_eq _ _ _ _ _ M). reflexivity.
    + intros y. rewrite upd_spec. destruct (Nat.eqb_spec y r) as [->|]; [|apply (f_b _ _ _ _ _ M)]. unfold bod. rewrite Sb. exists (Some r), (next s0 r). unfold next. destruct (sp_b s0 r); reflexivity.
    + intros y Hy. rewrite upd_other by (cbn in Hy; intros ->; tauto). apply (f_out _ _ _ _ _ M). intros [].
    + intros y [<-|[]]. unfold root. ss. now rewrite upd_same.
    + right. exists []. split; auto. cbn. split; auto. unfold next. ss. rewrite upd_same. unfold bod. ss. fold (next s r). unfold next in *. now rewrite Sb.
    + constructor; [intros []|constructor].
    + intros y [<-|[]]. auto.
  - assert (Nr : b <> r) by (intros ->; apply Nb; rewrite El; cbn; auto).
    exists (r :: b :: t). splits; [|rewrite El; cbn; intros y; intuition|rewrite El; reflexivity].
    unfold component_add. rewrite (proj2 (Nat.eqb_neq b r) Nr).
    assert (V : forall y, sp_b (upd_b (upd_b (upd_b s b (b_root (bod s b) (Some r))) b (b_next (bod (upd_b s b (b_root (bod s b) (Some r))) b) (sb_next (bod (upd_b s b (b_root (bod s b) (Some r))) r)))) r
        (b_next (bod (upd_b (upd_b s b (b_root (bod s b) (Some r))) b (b_next (bod (upd_b s b (b_root (bod s b) (Some r))) b) (sb_next (bod (upd_b s b (b_root (bod s b) (Some r))) r)))) r) (Some b))) y =
        if Nat.eqb y r then b_next (sp_b s r) (Some b) else if Nat.eqb y b then b_next (b_root (sp_b s b) (Some r)) (next s r) else sp_b s y).
    { intros y. unfold bod; ss. rewrite !upd_spec. rewrite Nat.eqb_refl. rewrite (proj2 (Nat.eqb_neq r b)) by congruence. destruct (Nat.eqb_spec y r) as [->|]; [now rewrite ?(proj2 (Nat.eqb_neq r b)) by congruence|]. destruct (Nat.eqb_spec y b) as [->|]; reflexivity. }
    set (s1 := upd_b _ r _) in *.
    constructor.
    + unfold s1; ss. rewrite (f_eq _ _ _ _ _ M). reflexivity.
    + intros y. rewrite V. destruct (Nat.eqb_spec y r) as [->|].
      * destruct (f_b _ _ _ _ _ M r) as (q & n & E). rewrite E. exists q, (Some b). reflexivity.
      * destruct (Nat.eqb_spec y b) as [->|]; [|apply (f_b _ _ _ _ _ M)]. rewrite Sb. eexists _, _. reflexivity.
    + intros y Hy. rewrite V. cbn in Hy. rewrite (proj2 (Nat.eqb_neq y r)), (proj2 (Nat.eqb_neq y b)) by intuition. apply (f_out _ _ _ _ _ M). rewrite El. cbn. tauto.
    + intros y Hy. unfold root. rewrite V. destruct (Nat.eqb_spec y r) as [->|]; [apply (f_in _ _ _ _ _ M); rewrite El; cbn; auto|]. destruct (Nat.eqb_spec y b) as [->|]; [reflexivity|]. apply (f_in _ _ _ _ _ M). rewrite El. cbn in Hy |- *. destruct Hy as [Hy|[Hy|Hy]]; [congruence|congruence|auto].
    + right. exists (b :: t). split; auto. rewrite El in Ch. cbn in Ch. destruct Ch as [_ Ch]. cbn. split; auto. assert (ND := f_nd _ _ _ _ _ M). rewrite El in ND. apply NoDup_cons_iff in ND as [ND1 ND2].
      unfold next at 1. rewrite V, Nat.eqb_refl. split; [reflexivity|]. unfold next at 1. rewrite V, (proj2 (Nat.eqb_neq b r) Nr), Nat.eqb_refl. ss. 
      eapply chain_ext; [|exact Ch]. intros y Hy. unfold next. rewrite V. destruct (Nat.eqb_spec y r) as [->|]; [tauto|]. destruct (Nat.eqb_spec y b) as [->|]; auto. destruct Nb. rewrite El. cbn; auto.
    + assert (ND := f_nd _ _ _ _ _ M). rewrite El in ND, Nb. apply NoDup_cons_iff in ND as [ND1 ND2]. cbn in Nb. constructor; [cbn; intuition|]. constructor; tauto.
    + intros y Hy. assert (Q := f_U _ _ _ _ _ M). rewrite El in Q. cbn in Hy. destruct Hy as [<-|[<-|Hy]]; auto; apply Q; cbn; auto.
Qed.
Lemma flood_ok s0 r U : Unm s0 U -> forall fuel s l b, Marked s0 r U s l -> (kind s0 b = Dyn -> In b U) -> (l = [] -> b = r) -> length U < fuel + length l ->
  exists s' l', flood fuel r s b = Some s' /\ Marked s0 r U s' l' /\ incl l l' /\ (kind s0 b = Dyn -> In b l') /\
    (forall y, In y l' -> ~ In y l -> conn s0 b y /\ forall o, adj s0 y o -> kind s0 o = Dyn -> In o l').
Proof.
  intros UU. induction fuel as [|fuel IH]; intros s l b M HB L0 LF.
  { assert (length l <= length U) by (apply NoDup_incl_length; [apply (f_nd _ _ _ _ _ M)|apply (f_U _ _ _ _ _ M)]). lia. }
  cbn [flood]. destruct (marked_views _ _ _ _ _ M b) as (Kv & _). unfold is_dyn. rewrite Kv. destruct (kind_eqb (kind s0 b) Dyn) eqn:Kb; cbn [negb].
  2:{ apply kind_eqb_neq in Kb. exists s, l. splits; auto; [apply incl_refl|tauto|]. intros y Y1 Y2. tauto. }
  apply kind_eqb_eq in Kb. specialize (HB Kb). change (sb_root (bod s b)) with (root s b).
  destruct (in_dec Nat.eq_dec b l) as [D|D].
  { rewrite (f_in _ _ _ _ _ M b D). exists s, l. splits; auto; [apply incl_refl|]. intros y Y1 Y2. tauto. }
  assert (Rb : root s b = None). { unfold root. rewrite (f_out _ _ _ _ _ M b D). destruct UU as [_ UU]. now apply UU. }
  rewrite Rb. destruct (flood_add s0 r U s l b UU M HB D L0) as (l1 & M1 & L1 & LL1). set (s1 := component_add s r b) in *. clearbody s1.
  assert (NB : map (arb_other s1 b) (sb_arbs (bod s1 b)) ++ map (con_other s1 b) (sb_cons (bod s1 b)) = neighbours s0 b).
  { destruct (marked_views _ _ _ _ _ M1 b) as (_ & V1 & V2 & _). destruct (marked_eq _ _ _ _ _ M1) as (E1 & E2 & _). unfold neighbours. change (sb_arbs (bod s1 b)) with (arbl s1 b). change (sb_cons (bod s1 b)) with (conl s1 b). rewrite V1, V2.
    f_equal; apply map_ext; intros x; unfold arb_other, con_other; now rewrite ?E1, ?E2. }
  rewrite NB. destruct UU as [NU HU]. destruct (HU b HB) as (_ & _ & _ & UA).
  assert (LOOP : forall ns s l, Marked s0 r U s l -> l <> [] -> length U < fuel + length l -> (forall o, In o ns -> (kind s0 o = Dyn -> In o U) /\ (kind s0 o = Dyn -> conn s0 b o)) ->
    exists s' l', each (flood fuel r) s ns = Some s' /\ Marked s0 r U s' l' /\ incl l l' /\ (forall o, In o ns -> kind s0 o = Dyn -> In o l') /\
    (forall y, In y l' -> ~ In y l -> conn s0 b y /\ forall o, adj s0 y o -> kind s0 o = Dyn -> In o l')).
  { clear s Kv l M D Rb L0 LF l1 M1 L1 LL1 NB s1. induction ns as [|o ns IHn]; intros s l M LN LF HN; cbn [each].
    - exists s, l. splits; auto; [apply incl_refl|intros o []|]. intros y Y1 Y2. tauto.
    - destruct (HN o (or_introl eq_refl)) as [HN1 HN2]. destruct (IH s l o M HN1) as (s1 & l1 & E1 & M1 & I1 & K1 & C1); [tauto|lia|]. rewrite E1.
      assert (LL : length l <= length l1) by (apply NoDup_incl_length; [apply (f_nd _ _ _ _ _ M)|auto]).
      destruct (IHn s1 l1 M1) as (s2 & l2 & E2 & M2 & I2 & K2 & C2); [destruct l; [tauto|]; destruct l1; [cbn in LL; lia|discriminate]|lia|intros; apply HN; cbn; auto|].
      exists s2, l2. splits; auto; [eapply incl_tran; eauto| |].
      + intros o' [<-|Ho] Ko; auto.
      + intros y Y1 Y2. destruct (in_dec Nat.eq_dec y l1) as [D|D]; [|apply C2; auto]. destruct (C1 y D Y2) as [C3 C4]. split; [|intros; apply I2; eauto].
        destruct (kind_eqb (kind s0 o) Dyn) eqn:Ko; [apply kind_eqb_eq in Ko; eapply rst_trans; [apply HN2; auto|exact C3]|].
        (* not dynamic: nothing was marked *) exfalso. unfold flood in E1. destruct fuel; [discriminate|]. unfold is_dyn in E1. destruct (marked_views _ _ _ _ _ M o) as (Kv & _). cbn [negb] in E1. rewrite Kv, Ko in E1. cbn [negb] in E1. injection E1 as <-.
        apply Y2. destruct (in_dec Nat.eq_dec y l); auto. exfalso. assert (R1 := f_in _ _ _ _ _ M1 y D). unfold root in R1. rewrite (f_out _ _ _ _ _ M y) in R1 by auto. destruct (HU y) as (_ & R2 & _); [apply (f_U _ _ _ _ _ M1); auto|]. unfold root in R2. congruence. }
  destruct (LOOP (neighbours s0 b) s1 l1 M1) as (s' & l' & E & M' & I' & K' & C'); [intros ->; discriminate|lia| |].
  { intros o Ho. apply neighbours_adj in Ho. split; [intros; apply UA; auto|]. intros Ko. apply rst_step. auto. }
  exists s', l'. splits; auto.
  - intros y Hy. apply I', L1. auto.
  - intros _. apply I', L1. auto.
  - intros y Y1 Y2. destruct (Nat.eq_dec y b) as [->|Ny]; [|apply C'; auto; rewrite L1; tauto]. split; [apply rst_refl|]. intros o Ho Ko. apply K'; auto. now apply neighbours_adj.
Qed.
End Comp.
