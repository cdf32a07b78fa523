(** The components phase and the ageing of arbiters. *)
From Coq Require Import List Arith NArith Bool Lia Permutation FunctionalExtensionality Relations.
From Verif Require Import SpecSpace.
From Verif.Model Require Import HashSet Space.
From Verif.Proofs Require Import Util SpaceLib SpaceInv SpaceAct SpaceOps SpaceOps2 SpaceStep SpaceSleep SpaceComp SpaceComp2 SpaceStep2.
Import ListNotations.

Section Step3.
Context {T : Type} `{Time T}.
Notation Sp := (Space T).
Implicit Types (s : Sp) (b x c r : nat).

Lemma kint_start s : Core s (sp_arbs s) -> KinT s.
Proof.
  intros I x Tx. assert (X : root s (ba s x) <> None \/ root s (bb s x) <> None).
  { destruct (i_thr_st _ _ I x Tx) as [X|[_ X]]; auto. exfalso. apply (i_pend _ _ I) in X. tauto. }
  assert (NR : forall y, kind s y = Kin -> root s y = None). { intros y Ky. destruct (root s y) eqn:R; auto. apply (i_root _ _ I) in R as (_ & R & _). congruence. }
  split; intros K1 K2; exfalso; assert (N := NR _ K1).
  - destruct X as [X|X]; [congruence|]. destruct (root s (bb s x)) as [q|] eqn:R; [|congruence]. destruct (i_thr_cl _ _ I x q Tx) as [_ C]. destruct (C R); congruence.
  - destruct X as [X|X]; [|congruence]. destruct (root s (ba s x)) as [q|] eqn:R; [|congruence]. destruct (i_thr_cl _ _ I x q Tx) as [C _]. destruct (C R); congruence.
Qed.
Lemma conn_ext s s' b y : (forall z, kind s' z = kind s z /\ arbl s' z = arbl s z /\ conl s' z = conl s z) -> sp_a s' = sp_a s -> sp_c s' = sp_c s -> conn s b y -> conn s' b y.
Proof.
  intros V A C. induction 1 as [p q [A1 [A2 A3]]| | |]; [|apply rst_refl|now apply rst_sym|eapply rst_trans; eauto].
  apply rst_step. destruct (V p) as (-> & V2 & V3), (V q) as (-> & _). splits; auto. unfold adj, arb_other, con_other in *. rewrite V2, V3, A, C. auto.
Qed.
Lemma fr_quiet thr s s' : Fr thr s s' -> Quiet s s'.
Proof.
  intros F. destruct (n_eq _ _ _ F) as (A & _ & _ & G & S & _). assert (TH : forall x, threaded s' x <-> threaded s x). { intros x. unfold threaded, ba. rewrite A. destruct (n_view _ _ _ F (sa_ba (sp_a s x))) as (_ & -> & _). tauto. }
  constructor; auto.
  - intros x. unfold ba, bb. rewrite A. splits; reflexivity.
  - intros x. rewrite A. auto.
  - apply F.
  - apply F.
  - intros x. now rewrite TH.
Qed.

Record Processed (dt : T) (mv : nat -> bool) (thr : option T) s s' : Prop := {
  e_calm : Calm s s'; e_kind : forall y, kind s' y = kind s y; e_in : forall y, sb_in (sp_b s' y) = sb_in (sp_b s y); e_s : sp_s s' = sp_s s; e_c : sp_c s' = sp_c s;
  e_slept : forall y q, root s' y = Some q -> root s y = Some q \/ exists th, thr = Some th /\ root s y = None /\ kind s y = Dyn /\ inb s y /\ mv y = false /\ tltb (tadd (idle s y) dt) th = false;
  e_awake : forall th b, thr = Some th -> In b (sp_dyn s') -> exists y, conn s' b y /\ tltb (idle s' y) th = true;
  e_idle : forall y, idle s' y = t0 \/ idle s' y = match thr with Some _ => if memb y (sp_dyn s) && is_dyn s y then if mv y then t0 else tadd (idle s y) dt else idle s y | None => idle s y end;
  e_none : thr = None -> sp_sleep s' = [] }.
Lemma process_ok s dt mv thr : Core s (sp_arbs s) -> (thr = None -> sp_sleep s = []) -> (forall th, thr = Some th -> tltb t0 th = true) ->
  exists s', process_components s dt mv thr = Some s' /\ Core s' [] /\ Processed dt mv thr s s'.
Proof.
  intros I HN HT. assert (KT := kint_start s I). unfold process_components. destruct thr as [th|].
  - specialize (HT th eq_refl). clear HN.
    destruct (idle_loop dt mv (sp_dyn s) s _ I (i_dyn_nd _ _ I)) as (s1 & E1 & I1 & B1 & L1 & A1 & G1 & D1). rewrite E1.
    assert (Q1 := quiet_same s s1 B1 L1 A1 G1).
    assert (KT1 : KinT s1). { apply kint_start. rewrite (v_arbs _ _ L1). auto. }
    rewrite (v_arbs _ _ L1). destruct (push_loop true (sp_arbs s) s1) as (s2 & E2 & I2 & C2 & Z2 & _ & K2); auto; [apply I|discriminate|]. rewrite E2. specialize (K2 eq_refl).
    destruct (con_loop (sp_cons s2) s2 I2) as (s3 & E3 & I3 & W3 & Z3 & K3). rewrite E3.
    assert (KT3 : KinT s3) by (eapply kint_wakes; eauto).
    assert (KC : forall c, sc_in (sp_c s3 c) = true -> (kind s3 (sc_a (sp_c s3 c)) = Kin -> kind s3 (sc_b (sp_c s3 c)) = Dyn -> idle s3 (sc_b (sp_c s3 c)) = t0) /\ (kind s3 (sc_b (sp_c s3 c)) = Kin -> kind s3 (sc_a (sp_c s3 c)) = Dyn -> idle s3 (sc_a (sp_c s3 c)) = t0)).
    { intros c. rewrite (y_c _ _ W3), !(y_kind _ _ W3). intros Hc. destruct (in_dec Nat.eq_dec c (sp_cons s2)) as [D|D]; [now apply K3|].
      assert (NR : forall y, kind s2 y = Kin -> root s2 y = None). { intros y Ky. destruct (root s2 y) eqn:R; auto. apply (i_root _ _ I2) in R as (_ & R & _). congruence. }
      rewrite (i_cons _ _ I2) in D. split; intros Ka Kb; exfalso; assert (N := NR _ Ka); apply D; splits; auto.
      - destruct (root s2 (sc_b (sp_c s2 c))) as [q|] eqn:R; auto. destruct (i_con_cl _ _ I2 c q Hc) as [_ C]. destruct (C R); congruence.
      - destruct (root s2 (sc_a (sp_c s2 c))) as [q|] eqn:R; auto. destruct (i_con_cl _ _ I2 c q Hc) as [C _]. destruct (C R); congruence. }
    destruct (comp_ok th s3 I3 HT) as (s4 & E4 & I4 & F4 & AW).
    { intros b o Ao Kb Ko. assert (idle s3 b = t0); [|congruence]. destruct (adj_inv s3 [] b o I3 Ao) as [(x & Tx & [[-> ->]|[-> ->]])|(c & Hc & [[-> ->]|[-> ->]])]; [apply KT3|apply KT3|apply KC|apply KC]; auto. }
    rewrite E4. exists s4. splits; auto. assert (Z : Busier s1 s3) by (eapply busier_trans; eauto).
    assert (KD : forall y, kind s4 y = kind s y). { intros y. destruct (n_view _ _ _ F4 y) as (-> & _). rewrite (z_kind _ _ Z). apply B1. }
    assert (IN : forall y, sb_in (sp_b s4 y) = sb_in (sp_b s y)). { intros y. destruct (n_view _ _ _ F4 y) as (_ & _ & _ & _ & -> & _). rewrite (z_in _ _ Z). apply B1. }
    assert (IDL : forall y, idle s4 y = t0 \/ idle s4 y = idle s1 y). { intros y. destruct (n_view _ _ _ F4 y) as (_ & _ & _ & _ & _ & ->). destruct (z_idle _ _ Z y); auto. }
    constructor; auto.
    + eapply calm_trans; [apply calm_quiet; exact Q1|]. eapply calm_trans; [exact C2|]. eapply calm_trans; apply calm_quiet; [apply quiet_wakes; exact W3|]. eapply fr_quiet; eauto.
    + destruct (n_eq _ _ _ F4) as (_ & -> & _). rewrite (z_s _ _ Z). apply L1.
    + destruct (n_eq _ _ _ F4) as (_ & _ & -> & _). rewrite (z_c _ _ Z). apply L1.
    + intros y q Ry. destruct (n_new _ _ _ F4 y q Ry) as [R3|(R3 & K3' & D3)].
      * left. destruct (z_root _ _ Z y) as [R|[R _]]; [|congruence]. rewrite <- (v_root _ _ B1). congruence.
      * right. exists th. destruct (i_root _ _ I4 y q Ry) as (X1 & X2 & _). unfold inb in X1. rewrite IN in X1. rewrite KD in X2.
        assert (R1 : root s y = None). { rewrite <- (v_root _ _ B1). destruct (z_root _ _ Z y) as [R|[_ R]]; congruence. }
        splits; auto. all: destruct (z_idle _ _ Z y) as [E|E]; rewrite E in D3; try congruence; rewrite D1 in D3.
        all: assert (M : In y (sp_dyn s)) by (apply (i_dyn _ _ I); splits; auto; congruence); apply memb_In in M; rewrite M in D3; unfold is_dyn in D3; rewrite X2 in D3; cbn in D3; destruct (mv y); congruence.
    + intros th' b [= <-] Hb. destruct (AW b Hb) as (y & C & D). exists y. destruct (n_eq _ _ _ F4) as (A4 & _ & C4 & _). split.
      * eapply conn_ext; [|exact A4|exact C4|exact C]. intros z. destruct (n_view _ _ _ F4 z) as (? & ? & ? & _). auto.
      * destruct (n_view _ _ _ F4 y) as (_ & _ & _ & _ & _ & ->). auto.
    + intros y. destruct (IDL y) as [|E]; auto. right. rewrite E, D1. reflexivity.
    + discriminate.
  - specialize (HN eq_refl). destruct (push_loop false (sp_arbs s) s) as (s2 & E2 & I2 & C2 & Z2 & S2 & _); auto; [apply I|]. rewrite E2. exists s2. splits; auto.
    constructor; try apply Z2; auto; try discriminate.
    + intros y q Ry. left. destruct (z_root _ _ Z2 y) as [R|[R _]]; congruence.
    + intros y. destruct (z_idle _ _ Z2 y); auto.
Qed.

(** ** Ageing *)
Definition resting s x := ((is_stat s (ba s x) || sleeping s (ba s x)) && (is_stat s (bb s x) || sleeping s (bb s x)))%bool.
Definition ticks s x := (sp_stamp s - sa_stamp (sp_a s x))%N.
Record Aged s x s' : Prop := {
  g_b : sp_b s' = sp_b s; g_lists : sp_dyn s' = sp_dyn s /\ sp_sleep s' = sp_sleep s /\ sp_s s' = sp_s s /\ sp_c s' = sp_c s /\ sp_arbs s' = sp_arbs s /\ sp_stamp s' = sp_stamp s /\ sp_sb s' = sp_sb s;
  g_a' : forall y, y <> x -> sp_a s' y = sp_a s y;
  g_x : sa_a (sp_a s' x) = sa_a (sp_a s x) /\ sa_b (sp_a s' x) = sa_b (sp_a s x) /\ ba s' x = ba s x /\ bb s' x = bb s x /\ sa_stamp (sp_a s' x) = sa_stamp (sp_a s x);
  g_log : (sp_log s' = sp_log s /\ sp_a s' = sp_a s) \/ (sp_log s' = sp_log s ++ [ESep (sa_a (sp_a s x)) (sa_b (sp_a s x))] /\ sa_state (sp_a s x) <> ACached /\ sa_state (sp_a s' x) = ACached /\ ticks s x <> 0%N);
  g_cache : forall y, y <> x -> (In y (sp_cache s') <-> In y (sp_cache s)); g_sub : forall y, In y (sp_cache s') -> In y (sp_cache s);
  g_keep : ticks s x = 0%N -> s' = s; g_old : resting s x = false -> ticks s x <> 0%N -> sa_state (sp_a s' x) = ACached;
  g_gone : In x (sp_cache s) -> ~ In x (sp_cache s') -> sa_state (sp_a s' x) = ACached }.
Lemma age_ok s x : Core s [] -> In x (sp_cache s) -> exists s', age_arb s x = Some s' /\ Core s' [] /\ Aged s x s'.
Proof.
  intros I HX. unfold age_arb. change (sa_ba (sp_a s x)) with (ba s x). change (sa_bb (sp_a s x)) with (bb s x). fold (resting s x) (ticks s x).
  destruct (resting s x) eqn:RS.
  { exists s. splits; auto. constructor; auto; try tauto; try (intros; congruence); splits; reflexivity. }
  set (sep := ((1 <=? ticks s x)%N && negb (astate_eqb (sa_state (sp_a s x)) ACached))%bool).
  set (s1 := if sep then _ else s).
  assert (A1 : forall y, y <> x -> sp_a s1 y = sp_a s y) by (intros y Ny; unfold s1; destruct sep; auto; ss; now rewrite upd_other).
  assert (X1 : sa_a (sp_a s1 x) = sa_a (sp_a s x) /\ sa_b (sp_a s1 x) = sa_b (sp_a s x) /\ ba s1 x = ba s x /\ bb s1 x = bb s x /\ sa_stamp (sp_a s1 x) = sa_stamp (sp_a s x)).
  { unfold ba, bb, s1. destruct sep; ss; rewrite ?upd_same; splits; reflexivity. }
  assert (Q1 : sp_b s1 = sp_b s /\ sp_log s1 = (if sep then sp_log s ++ [ESep (sa_a (sp_a s x)) (sa_b (sp_a s x))] else sp_log s) /\ SameL s s1).
  { unfold s1. destruct sep; ss; splits; try reflexivity; try apply sameL_refl. constructor; reflexivity. }
  destruct Q1 as (B1 & G1 & L1).
  assert (SA1 : SameA s s1). { intros y. destruct (Nat.eq_dec y x) as [->|Ny]; [tauto|]. unfold ba, bb. rewrite A1 by auto. splits; reflexivity. }
  assert (ST1 : forall y, sa_stamp (sp_a s1 y) = sa_stamp (sp_a s y)). { intros y. destruct (Nat.eq_dec y x) as [->|Ny]; [tauto|]. now rewrite A1. }
  assert (SB1 : SameB s s1) by (constructor; intros y; unfold kind, root, next, arbl, conl, shl; now rewrite B1).
  assert (I1 : Core s1 []). { apply (core_ext s); auto. intros y _. left. unfold idle. now rewrite B1. }
  assert (C1 : sa_state (sp_a s1 x) = if sep then ACached else sa_state (sp_a s x)) by (unfold s1; destruct sep; ss; rewrite ?upd_same; reflexivity).
  assert (SEP : ticks s x <> 0%N -> sa_state (sp_a s1 x) = ACached).
  { intros N. rewrite C1. unfold sep. destruct (N.leb_spec 1 (ticks s x)); [|lia]. cbn [andb]. destruct (sa_state (sp_a s x)); reflexivity. }
  assert (SEP2 : sep = true -> sa_state (sp_a s x) <> ACached /\ ticks s x <> 0%N).
  { unfold sep. rewrite andb_true_iff, negb_true_iff. intros [D1 D2]. apply N.leb_le in D1. split; [|lia]. intros E. rewrite E in D2. discriminate. }
  assert (LG : (sp_log s1 = sp_log s /\ sp_a s1 = sp_a s) \/ (sp_log s1 = sp_log s ++ [ESep (sa_a (sp_a s x)) (sa_b (sp_a s x))] /\ sa_state (sp_a s x) <> ACached /\ sa_state (sp_a s1 x) = ACached /\ ticks s x <> 0%N)).
  { rewrite G1. destruct sep eqn:E; [right|left]; [destruct (SEP2 eq_refl); splits; auto; rewrite C1; auto|split; auto]. }
  assert (K0 : ticks s x = 0%N -> s1 = s). { intros E. unfold s1, sep. rewrite E. reflexivity. }
  destruct (N.leb_spec persistence (ticks s x)) as [LE|LT].
  - assert (NZ : ticks s x <> 0%N) by (unfold persistence in LE; lia).
    assert (NA : ~ In x (sp_arbs s)). { intros D. apply (i_arbs _ _ I) in D as [_ D]. unfold ticks in NZ. rewrite D in NZ. lia. }
    assert (NT : forall y, ~ In x (arbl s y)). { intros y D. assert (Tx : threaded s x) by (unfold threaded; now apply (i_thr _ _ I) in D). destruct (i_thr_st _ _ I x Tx); tauto. }
    eexists. split; [reflexivity|]. set (s' := set_pool _ _). destruct L1 as [L1 L2 L3 L4 L5 L6 L7 L8 L9 L10 L11 L12 L13 L14 L15 L16 L17].
    split.
    + apply (forget_ok s1 s' [] x); auto; try (intros; splits; reflexivity); try reflexivity.
      * now rewrite L8.
      * intros y. change (arbl s' y) with (arbl s1 y). rewrite del_none; auto. rewrite (v_arbl _ _ SB1). auto.
      * intros y. splits; reflexivity.
      * change (sp_arbs s') with (sp_arbs s1). rewrite del_none; auto. now rewrite L7.
    + assert (CC : forall y, In y (sp_cache s') <-> In y (sp_cache s) /\ y <> x) by (intros y; unfold s'; ss; rewrite L8; apply del_In, I).
      constructor; auto; unfold s'; ss; try tauto.
      * intros y Ny. change (In y (sp_cache s') <-> In y (sp_cache s)). rewrite CC. tauto.
      * intros y. change (In y (sp_cache s') -> In y (sp_cache s)). rewrite CC. tauto.
  - exists s1. splits; auto. destruct L1 as [L1 L2 L3 L4 L5 L6 L7 L8 L9 L10 L11 L12 L13 L14 L15 L16 L17]. constructor; auto.
    + splits; auto.
    + intros y _. rewrite L8. tauto.
    + intros y. now rewrite L8.
    + rewrite L8. tauto.
Qed.
Inductive AgeRel : Sp -> list nat -> Sp -> Prop :=
| ar_nil s : AgeRel s [] s
| ar_cons s x s1 l s' : Core s [] -> In x (sp_cache s) -> Core s1 [] -> Aged s x s1 -> AgeRel s1 l s' -> AgeRel s (x :: l) s'.
Lemma age_loop l : forall s, Core s [] -> NoDup l -> incl l (sp_cache s) -> exists s', each age_arb s l = Some s' /\ Core s' [] /\ AgeRel s l s'.
Proof.
  induction l as [|x l IH]; intros s I ND HI; cbn [each]; [exists s; splits; auto; constructor|].
  apply NoDup_cons_iff in ND as [N1 N2]. assert (X : In x (sp_cache s)) by (apply HI; cbn; auto). destruct (age_ok s x I X) as (s1 & E1 & I1 & G1). rewrite E1.
  destruct (IH s1 I1 N2) as (s' & E' & I' & R'). { intros y Hy. apply (g_cache _ _ _ G1); [congruence|]. apply HI. cbn; auto. }
  exists s'. split; [exact E'|]. split; [exact I'|]. exact (ar_cons s x s1 l s' I X I1 G1 R').
Qed.
Lemma age_frame s l s' : AgeRel s l s' -> sp_b s' = sp_b s /\ sp_dyn s' = sp_dyn s /\ sp_sleep s' = sp_sleep s /\ sp_s s' = sp_s s /\ sp_c s' = sp_c s /\ sp_arbs s' = sp_arbs s /\ sp_stamp s' = sp_stamp s /\ sp_sb s' = sp_sb s /\
  (forall y, sa_a (sp_a s' y) = sa_a (sp_a s y) /\ sa_b (sp_a s' y) = sa_b (sp_a s y) /\ ba s' y = ba s y /\ bb s' y = bb s y /\ sa_stamp (sp_a s' y) = sa_stamp (sp_a s y)).
Proof.
  induction 1 as [s|s x s1 l s' I X I1 G HR IH]; [splits; try reflexivity; intros; splits; reflexivity|].
  destruct (g_lists _ _ _ G) as (E1 & E2 & E3 & E4 & E5 & E6 & E7). destruct IH as (F0 & F1 & F2 & F3 & F4 & F5 & F6 & F7 & F8). splits; try congruence; [rewrite F0; apply G|].
  intros y. destruct (F8 y) as (-> & -> & -> & -> & ->). destruct (Nat.eq_dec y x) as [->|Ny]; [apply G|]. unfold ba, bb. rewrite (g_a' _ _ _ G y Ny). splits; reflexivity.
Qed.
End Step3.
