(** The loop over the awake bodies that puts idle components to sleep. *)
From Coq Require Import List Arith NArith Bool Lia Permutation FunctionalExtensionality Relations.
From Verif.Model Require Import HashSet Space.
From Verif.Proofs Require Import Util SpaceLib SpaceInv SpaceAct SpaceOps SpaceOps2 SpaceSleep SpaceComp.
Import ListNotations.

Lemma del_app_r x l m : ~ In x l -> del x (l ++ m) = l ++ del x m.
Proof. induction l as [|y l IH]; cbn; auto. intros N. destruct (Nat.eqb_spec x y); [subst; tauto|]. rewrite IH; tauto. Qed.
Lemma dels_app_r r : forall l m, (forall x, In x r -> ~ In x l) -> dels r (l ++ m) = l ++ dels r m.
Proof. induction r as [|x r IH]; intros l m N; cbn [dels fold_left]; auto. rewrite del_app_r by (apply N; cbn; auto). apply IH. intros; apply N; cbn; auto. Qed.
Lemma dels_length r : forall l, length (dels r l) <= length l.
Proof.
  assert (D : forall x l, length (del x l) <= length l). { intros x. induction l as [|y l IH]; cbn; auto. destruct (Nat.eqb x y); cbn; lia. }
  induction r as [|x r IH]; intros l; cbn [dels fold_left]; auto. etransitivity; [apply IH|apply D].
Qed.

Section Loop.
Context {T : Type} `{Time T}.
Notation Sp := (Space T).
Implicit Types (s : Sp) (b x c r : nat).

Definition clean (y : SBody T) : SBody T := b_next (b_root y None) None.
(** the awake bodies without their marks *)
Definition er s : Sp := set_b s (fun y => if memb y (sp_dyn s) then clean (sp_b s y) else sp_b s y).
(** what the loop leaves alone *)
Record Fr (thr : T) s0 s : Prop := {
  n_view : forall y, kind s y = kind s0 y /\ arbl s y = arbl s0 y /\ conl s y = conl s0 y /\ shl s y = shl s0 y /\ sb_in (sp_b s y) = sb_in (sp_b s0 y) /\ idle s y = idle s0 y;
  n_eq : sp_a s = sp_a s0 /\ sp_s s = sp_s s0 /\ sp_c s = sp_c s0 /\ sp_log s = sp_log s0 /\ sp_stamp s = sp_stamp s0 /\ sp_pool s = sp_pool s0 /\ sp_na s = sp_na s0 /\ sp_nb s = sp_nb s0 /\ sp_sb s = sp_sb s0;
  n_live : forall x, live s x <-> live s0 x; n_act : forall x, In x (sp_arbs s) \/ threaded s x <-> In x (sp_arbs s0) \/ threaded s0 x;
  n_old : forall y q, root s0 y = Some q -> root s y = Some q;
  n_new : forall y q, root s y = Some q -> root s0 y = Some q \/ (root s0 y = None /\ kind s0 y = Dyn /\ tltb (idle s0 y) thr = false) }.
Lemma fr_refl thr s : Fr thr s s.
Proof. constructor; auto; try tauto; intros; splits; reflexivity. Qed.

Record J (thr : T) s0 s (dn td : list nat) : Prop := {
  j_core : Core (er s) []; j_fr : Fr thr s0 (er s); j_dyn : sp_dyn s = dn ++ td;
  j_dn : forall b, In b dn -> root s b = None /\ next s b = None;
  j_kin : forall b, In b td -> kind s0 b <> Dyn -> root s b = None /\ next s b = None;
  j_unm : forall b, In b td -> kind s0 b = Dyn -> root s b = None -> next s b = None /\ forall o, adj s0 b o -> kind s0 o = Dyn -> In o td /\ root s o = None;
  j_wit : forall b, In b dn \/ (In b td /\ root s b <> None) -> exists y, conn s0 b y /\ tltb (idle s0 y) thr = true }.
Lemma er_b s y : sp_b (er s) y = if memb y (sp_dyn s) then clean (sp_b s y) else sp_b s y.
Proof. reflexivity. Qed.
Lemma er_views s y : kind (er s) y = kind s y /\ arbl (er s) y = arbl s y /\ conl (er s) y = conl s y /\ shl (er s) y = shl s y /\ sb_in (sp_b (er s) y) = sb_in (sp_b s y) /\ idle (er s) y = idle s y.
Proof. unfold kind, arbl, conl, shl, idle. rewrite er_b. destruct (memb y (sp_dyn s)); splits; reflexivity. Qed.
(** a change of marks of awake bodies only *)
Lemma er_marks s s' : s' = set_b s (sp_b s') -> (forall y, clean (sp_b s' y) = clean (sp_b s y)) -> (forall y, ~ In y (sp_dyn s) -> sp_b s' y = sp_b s y) -> er s' = er s.
Proof.
  intros E C O. assert (D : sp_dyn s' = sp_dyn s) by (rewrite E; reflexivity). unfold er. rewrite E at 1. rewrite D. unfold set_b. ss. f_equal. extensionality y. destruct (memb_spec y (sp_dyn s)); auto.
Qed.
Lemma er_id s : (forall b, In b (sp_dyn s) -> root s b = None /\ next s b = None) -> er s = s.
Proof.
  intros E. unfold er. transitivity (set_b s (sp_b s)); [|destruct s; reflexivity]. f_equal. extensionality y. destruct (memb_spec y (sp_dyn s)) as [D|]; auto.
  destruct (E y D) as [E1 E2]. unfold root, next in *. unfold clean. destruct (sp_b s y); ss. now subst.
Qed.
Lemma clean2 y a n : clean (b_next (b_root y a) n) = clean y. Proof. reflexivity. Qed.

Lemma unm_of thr s0 s dn td : Core s0 [] -> J thr s0 s dn td -> Unm s (filter (fun b => is_dyn s0 b && match root s b with None => true | Some _ => false end) td) /\
  (forall b, In b (filter (fun b => is_dyn s0 b && match root s b with None => true | Some _ => false end) td) <-> In b td /\ kind s0 b = Dyn /\ root s b = None) /\
  (forall y, kind s y = kind s0 y /\ idle s y = idle s0 y) /\ (forall b o, adj s b o <-> adj s0 b o) /\ (forall b o, conn s b o -> conn s0 b o) /\ NoDup (dn ++ td).
Proof.
  intros I0 Jn. set (U := filter _ td).
  assert (EV : forall y, kind s y = kind s0 y /\ arbl s y = arbl s0 y /\ conl s y = conl s0 y /\ idle s y = idle s0 y).
  { intros y. destruct (n_view _ _ _ (j_fr _ _ _ _ _ Jn) y) as (A1 & A2 & A3 & A4 & A5 & A6). destruct (er_views s y) as (B1 & B2 & B3 & B4 & B5 & B6). splits; congruence. }
  destruct (n_eq _ _ _ (j_fr _ _ _ _ _ Jn)) as (Ea & Es & Ec & _). change (sp_a (er s)) with (sp_a s) in Ea. change (sp_c (er s)) with (sp_c s) in Ec.
  assert (AJ : forall b o, adj s b o <-> adj s0 b o). { intros b o. unfold adj, arb_other, con_other. destruct (EV b) as (_ & -> & -> & _). rewrite Ea, Ec. tauto. }
  assert (UI : forall b, In b U <-> In b td /\ kind s0 b = Dyn /\ root s b = None).
  { intros b. unfold U. rewrite filter_In, andb_true_iff. unfold is_dyn. rewrite kind_eqb_eq. destruct (root s b); intuition; discriminate. }
  assert (ND : NoDup (dn ++ td)). { rewrite <- (j_dyn _ _ _ _ _ Jn). apply (j_core _ _ _ _ _ Jn). }
  splits; auto.
  - split; [apply NoDup_filter; apply nodup_app in ND; tauto|]. intros b Hb. apply UI in Hb as (B1 & B2 & B3). destruct (EV b) as (-> & _). destruct (j_unm _ _ _ _ _ Jn b B1 B2 B3) as [B4 B5]. splits; auto.
    intros o Ho Ko. apply AJ in Ho. destruct (EV o) as (Kv & _). rewrite Kv in Ko. apply UI. destruct (B5 o Ho Ko). auto.
  - intros y. split; apply EV.
  - intros b o. induction 1 as [p q [C1 [C2 C3]]| | |]; [apply rst_step|apply rst_refl|now apply rst_sym|eapply rst_trans; eauto].
    apply AJ in C1. destruct (EV p) as (<- & _), (EV q) as (<- & _). auto.
Qed.

Lemma sleeping_root s b : sleeping s b = match root s b with Some _ => true | None => false end. Proof. reflexivity. Qed.
Lemma loop_ok thr s0 : Core s0 [] -> tltb t0 thr = true -> (forall b o, adj s0 b o -> kind s0 b = Dyn -> kind s0 o = Kin -> tltb (idle s0 b) thr = true) ->
  forall fuel s dn td, J thr s0 s dn td -> length td < fuel -> exists s' dn', comp_loop fuel thr s (length dn) = Some s' /\ J thr s0 s' dn' [].
Proof.
  intros I0 TH KQ. induction fuel as [|fuel IH]; intros s dn td Jn LF; [lia|].
  cbn [comp_loop]. rewrite (j_dyn _ _ _ _ _ Jn). destruct td as [|b td].
  { rewrite app_nil_r. rewrite (proj2 (nth_error_None dn (length dn))) by lia. exists s, dn. auto. }
  rewrite nth_error_app2, Nat.sub_diag by lia. cbn [nth_error]. cbn [length] in LF.
  destruct (unm_of thr s0 s dn (b :: td) I0 Jn) as (UU & UI & KV & AJ & CN & ND). set (U := filter _ (b :: td)) in *.
  assert (L1 : length (dn ++ [b]) = S (length dn)) by (rewrite app_length; cbn; lia).
  assert (DY : In b (sp_dyn s)) by (rewrite (j_dyn _ _ _ _ _ Jn); apply in_app_iff; cbn; auto).
  assert (NB : ~ In b dn /\ ~ In b td). { apply nodup_app in ND as (_ & N2 & N3). apply NoDup_cons_iff in N2 as [N2 _]. split; auto. intros D. apply (N3 b D). cbn; auto. }
  (* marking [b] as done *)
  assert (RS : forall s1, s1 = set_b s (sp_b s1) -> er s1 = er s -> er (reset_node s1 b) = er s /\ sp_dyn (reset_node s1 b) = dn ++ [b] ++ td /\ root (reset_node s1 b) b = None /\ next (reset_node s1 b) b = None /\ forall y, y <> b -> root (reset_node s1 b) y = root s1 y /\ next (reset_node s1 b) y = next s1 y).
  { intros s1 E1 E2. assert (D1 : sp_dyn s1 = sp_dyn s) by (rewrite E1; reflexivity). splits.
    - rewrite <- E2. apply er_marks; unfold reset_node.
      + destruct s1; reflexivity.
      + intros y. ss. rewrite upd_spec. destruct (Nat.eqb_spec y b) as [->|]; reflexivity.
      + intros y Hy. rewrite D1 in Hy. ss. rewrite upd_other; auto. congruence.
    - change (sp_dyn s1 = dn ++ [b] ++ td). rewrite D1. apply Jn.
    - unfold root, reset_node. ss. now rewrite upd_same.
    - unfold next, reset_node. ss. now rewrite upd_same.
    - intros y Ny. unfold root, next, reset_node. ss. rewrite upd_other; auto. }
  rewrite sleeping_root. destruct (root s b) as [q|] eqn:Rb.
  { (* marked: b belongs to an active component *)
    destruct (RS s) as (R1 & R2 & R3 & R4 & R5); [destruct s; reflexivity|reflexivity|]. rewrite <- L1. apply IH with (td := td); [|lia]. constructor.
    - rewrite R1. apply Jn.
    - rewrite R1. apply Jn.
    - rewrite R2, <- app_assoc. reflexivity.
    - intros y Hy. apply In_snoc in Hy as [Hy| ->]; auto. assert (y <> b) by (intros ->; tauto). destruct (R5 y) as [-> ->]; auto. now apply (j_dn _ _ _ _ _ Jn).
    - intros y Hy. assert (y <> b) by (intros ->; tauto). destruct (R5 y) as [-> ->]; auto. apply (j_kin _ _ _ _ _ Jn). cbn; auto.
    - intros y Hy Ky. assert (Ny : y <> b) by (intros ->; tauto). destruct (R5 y) as [-> ->]; auto. intros Ry. destruct (j_unm _ _ _ _ _ Jn y (or_intror Hy) Ky Ry) as [U1 U2]. split; auto. intros o Ao Ko. destruct (U2 o Ao Ko) as [U3 U4].
      assert (No : o <> b) by (intros ->; congruence). destruct (R5 o No) as [-> _]. split; auto. destruct U3; [congruence|auto].
    - intros y [Hy|[Hy Ry]].
      + apply In_snoc in Hy as [Hy| ->]; [apply (j_wit _ _ _ _ _ Jn); auto|]. apply (j_wit _ _ _ _ _ Jn). right. split; [cbn; auto|congruence].
      + assert (Ny : y <> b) by (intros ->; tauto). destruct (R5 y Ny) as [E _]. rewrite E in Ry. apply (j_wit _ _ _ _ _ Jn). right. split; [cbn; auto|auto]. }
  assert (IB : b < sp_nb s). { apply (i_nb _ _ (j_core _ _ _ _ _ Jn)). assert (D := DY). change (sp_dyn s) with (sp_dyn (er s)) in D. apply (i_dyn _ _ (j_core _ _ _ _ _ Jn)) in D. tauto. }
  destruct (kind_eqb (kind s0 b) Dyn) eqn:Kb.
  2:{ (* a kinematic body *)
    apply kind_eqb_neq in Kb. destruct (KV b) as [Kv Iv]. assert (Kk : kind s0 b = Kin).
    { assert (D := DY). change (sp_dyn s) with (sp_dyn (er s)) in D. apply (i_dyn _ _ (j_core _ _ _ _ _ Jn)) in D as (_ & D & _). destruct (er_views s b) as (E & _). rewrite E, Kv in D. destruct (kind s0 b); congruence. }
    cbn [flood]. unfold is_dyn. rewrite Kv, Kk. cbn [kind_eqb negb]. destruct (j_kin _ _ _ _ _ Jn b (or_introl eq_refl)) as [_ Nx]; [congruence|].
    rewrite (members_chain s [b]); [|cbn; auto|cbn; lia]. unfold component_active. cbn [existsb]. change (sb_idle (bod s b)) with (idle s b).
    rewrite Iv. assert (Ib : idle s0 b = t0) by (apply (i_kin _ _ I0); auto). rewrite Ib, TH. cbn [orb].
    destruct (RS s) as (R1 & R2 & R3 & R4 & R5); [destruct s; reflexivity|reflexivity|]. rewrite <- L1. apply IH with (td := td); [|lia]. constructor.
    - rewrite R1. apply Jn.
    - rewrite R1. apply Jn.
    - rewrite R2, <- app_assoc. reflexivity.
    - intros y Hy. apply In_snoc in Hy as [Hy| ->]; auto. assert (y <> b) by (intros ->; tauto). destruct (R5 y) as [-> ->]; auto. now apply (j_dn _ _ _ _ _ Jn).
    - intros y Hy. assert (y <> b) by (intros ->; tauto). destruct (R5 y) as [-> ->]; auto. apply (j_kin _ _ _ _ _ Jn). cbn; auto.
    - intros y Hy Ky. assert (Ny : y <> b) by (intros ->; tauto). destruct (R5 y) as [-> ->]; auto. intros Ry. destruct (j_unm _ _ _ _ _ Jn y (or_intror Hy) Ky Ry) as [U1 U2]. split; auto. intros o Ao Ko. destruct (U2 o Ao Ko) as [U3 U4].
      assert (No : o <> b) by (intros ->; congruence). destruct (R5 o No) as [-> _]. split; auto. destruct U3; [congruence|auto].
    - intros y [Hy|[Hy Ry]].
      + apply In_snoc in Hy as [Hy| ->]; [apply (j_wit _ _ _ _ _ Jn); auto|]. exists b. split; [apply rst_refl|]. now rewrite Ib.
      + assert (Ny : y <> b) by (intros ->; tauto). destruct (R5 y Ny) as [E _]. rewrite E in Ry. apply (j_wit _ _ _ _ _ Jn). right. split; [cbn; auto|auto]. }
  apply kind_eqb_eq in Kb.
  assert (LU : length U <= length (dn ++ b :: td)). { unfold U. rewrite app_length. etransitivity; [|apply Nat.le_add_l]. clear. induction (b :: td) as [|y m IHm]; cbn; auto. destruct (_ && _); cbn; lia. }
  destruct (flood_ok s b U UU (S (S (length (dn ++ b :: td)))) s [] b) as (s1 & l & E1 & M1 & _ & Bl & CL); [| |auto|cbn [length]; lia|].
  { assert (FB : forall y, exists q n, sp_b s y = b_next (b_root (sp_b s y) q) n). { intros y. exists (root s y), (next s y). unfold root, next. destruct (sp_b s y); reflexivity. }
    assert (FE : s = set_b s (sp_b s)) by (destruct s; reflexivity). constructor; auto; try (intros y []). constructor. }
  { intros _. apply UI. splits; cbn; auto. }
  rewrite E1. destruct (KV b) as [Kv Iv]. rewrite Kv in Bl. specialize (Bl Kb).
  destruct (f_ch _ _ _ _ _ M1) as [->|(t & El & CH)]; [destruct Bl|].
  assert (LU' : forall y, In y l -> In y (b :: td) /\ kind s0 y = Dyn /\ root s y = None) by (intros y Hy; apply UI, (f_U _ _ _ _ _ M1), Hy).
  assert (LD : forall y, In y l -> In y (sp_dyn s)). { intros y Hy. rewrite (j_dyn _ _ _ _ _ Jn). apply in_app_iff. right. now apply LU'. }
  assert (LN : forall y, In y l -> y < sp_nb s). { intros y Hy. apply (i_nb _ _ (j_core _ _ _ _ _ Jn)). assert (D := LD y Hy). change (sp_dyn s) with (sp_dyn (er s)) in D. apply (i_dyn _ _ (j_core _ _ _ _ _ Jn)) in D. tauto. }
  assert (EQ1 := f_eq _ _ _ _ _ M1).
  assert (NB1 : sp_nb s1 = sp_nb s) by (rewrite EQ1; reflexivity).
  rewrite (members_chain s1 l); [|auto|rewrite NB1; apply nodup_bound; [apply (f_nd _ _ _ _ _ M1)|auto]].
  assert (ER1 : er s1 = er s).
  { apply er_marks; auto; [intros y; destruct (f_b _ _ _ _ _ M1 y) as (q & n & ->); apply clean2|]. intros y Hy. apply (f_out _ _ _ _ _ M1). intros D. apply Hy. auto. }
  assert (ID1 : forall y, idle s1 y = idle s0 y) by (intros y; destruct (marked_views _ _ _ _ _ M1 y) as (_ & _ & _ & _ & _ & ->); apply KV).
  assert (CLD : forall y o, In y l -> adj s0 y o -> kind s0 o = Dyn -> In o l). { intros y o Hy Ao Ko. destruct (CL y Hy (fun D => D)) as [_ C]. apply C; [now apply AJ|]. destruct (KV o) as [-> _]. auto. }
  assert (CNN : forall y, In y l -> conn s0 b y) by (intros y Hy; apply CN; apply (CL y Hy); intros []).
  destruct (component_active s1 l thr) eqn:AC.
  - (* active *)
    unfold component_active in AC. apply existsb_exists in AC as (z & Hz & AC). change (sb_idle (bod s1 z)) with (idle s1 z) in AC. rewrite ID1 in AC.
    destruct (RS s1 EQ1 ER1) as (R1 & R2 & R3 & R4 & R5). rewrite <- L1. apply IH with (td := td); [|lia]. constructor.
    + rewrite R1. apply Jn.
    + rewrite R1. apply Jn.
    + rewrite R2, <- app_assoc. reflexivity.
    + intros y Hy. apply In_snoc in Hy as [Hy| ->]; auto. assert (Ny : y <> b) by (intros ->; tauto). destruct (R5 y Ny) as [-> ->]. unfold root, next. rewrite (f_out _ _ _ _ _ M1).
      * now apply (j_dn _ _ _ _ _ Jn).
      * intros D. apply LU' in D as (D & _). apply nodup_app in ND as (_ & _ & ND). exact (ND y Hy D).
    + intros y Hy Ky. assert (Ny : y <> b) by (intros ->; tauto). destruct (R5 y Ny) as [-> ->]. unfold root, next. rewrite (f_out _ _ _ _ _ M1).
      * apply (j_kin _ _ _ _ _ Jn y); cbn; auto.
      * intros D. apply LU' in D as (_ & D & _). auto.
    + intros y Hy Ky. assert (Ny : y <> b) by (intros ->; tauto). destruct (R5 y Ny) as [-> ->]. intros Ry. assert (Nl : ~ In y l) by (intros D; rewrite (f_in _ _ _ _ _ M1 y D) in Ry; discriminate).
      assert (Ey := f_out _ _ _ _ _ M1 y Nl). unfold root in Ry. rewrite Ey in Ry. fold (root s y) in Ry. destruct (j_unm _ _ _ _ _ Jn y (or_intror Hy) Ky Ry) as [U1 U2]. split; [unfold next; rewrite Ey; auto|].
      intros o Ao Ko. destruct (U2 o Ao Ko) as [U3 U4]. assert (Nol : ~ In o l). { intros D. apply Nl. apply (CLD o y D); auto. now apply (adj_sym s0 []). }
      assert (No : o <> b) by (intros ->; tauto). destruct (R5 o No) as [-> _]. split; [destruct U3; [congruence|auto]|]. unfold root. rewrite (f_out _ _ _ _ _ M1 o Nol). auto.
    + assert (WL : forall y, In y l -> exists y', conn s0 y y' /\ tltb (idle s0 y') thr = true) by (intros y Hy; exists z; split; auto; eapply rst_trans; [apply rst_sym|]; apply CNN; auto).
      intros y [Hy|[Hy Ry]].
      * apply In_snoc in Hy as [Hy| ->]; [apply (j_wit _ _ _ _ _ Jn); auto|auto].
      * assert (Ny : y <> b) by (intros ->; tauto). destruct (R5 y Ny) as [E _]. rewrite E in Ry. destruct (in_dec Nat.eq_dec y l) as [D|D]; auto.
        unfold root in Ry. rewrite (f_out _ _ _ _ _ M1 y D) in Ry. apply (j_wit _ _ _ _ _ Jn). right. split; [cbn; auto|auto].
  - (* asleep *)
    assert (AI : forall y, In y l -> tltb (idle s0 y) thr = false).
    { intros y Hy. rewrite <- ID1. destruct (tltb (idle s1 y) thr) eqn:E; auto. exfalso. unfold component_active in AC. rewrite <- not_true_iff_false in AC. apply AC. apply existsb_exists. exists y. auto. }
    set (s2 := set_sleep s1 (sp_sleep s1 ++ [b])). assert (ICE := j_core _ _ _ _ _ Jn). set (e := er s) in *. assert (FR := j_fr _ _ _ _ _ Jn). fold e in FR.
    assert (EV : forall y, kind e y = kind s0 y /\ idle e y = idle s0 y) by (intros y; destruct (n_view _ _ _ FR y) as (? & _ & _ & _ & _ & ?); auto).
    assert (AE : forall p o, adj e p o <-> adj s0 p o). { intros p o. rewrite <- AJ. unfold adj, arb_other, con_other. destruct (er_views s p) as (_ & V1 & V2 & _). unfold e. rewrite V1, V2. tauto. }
    assert (CLO : Closed e l).
    { assert (ST : forall p o, In p l -> adj e p o -> kind e o = Stat \/ In o l).
      { intros p o Hp Ao. apply AE in Ao. destruct (EV o) as [-> _]. destruct (kind s0 o) eqn:Ko; auto; [right; eapply CLD; eauto|]. exfalso. specialize (KQ p o Ao). rewrite (AI p Hp) in KQ. destruct (LU' p Hp) as (_ & Kp & _). specialize (KQ Kp Ko). discriminate. }
      constructor; [apply (f_nd _ _ _ _ _ M1)| | |].
      - intros y Hy. split; [exact (LD y Hy)|]. destruct (EV y) as [-> _]. now apply LU'.
      - intros x Tx. destruct (adj_thr e [] x ICE Tx). split; intros; eapply ST; eauto.
      - intros c Hc. destruct (adj_con e [] c ICE Hc). split; intros; eapply ST; eauto. }
    destruct (asleep e l ICE CLO) as (OW & OC & OS & N1 & N2 & OWA & OSI).
    assert (V1 : forall y, kind s2 y = kind e y /\ arbl s2 y = arbl e y /\ conl s2 y = conl e y /\ shl s2 y = shl e y /\ sb_in (sp_b s2 y) = sb_in (sp_b e y) /\ idle s2 y = idle e y).
    { intros y. destruct (marked_views _ _ _ _ _ M1 y) as (A1 & A2 & A3 & A4 & A5 & A6). destruct (er_views s y) as (B1 & B2 & B3 & B4 & B5 & B6). fold e in B1, B2, B3, B4, B5, B6. unfold s2. splits; etransitivity; try eassumption; symmetry; assumption. }
    assert (A2 : sp_a s2 = sp_a e) by (unfold s2; ss; rewrite EQ1; reflexivity). assert (C2 : sp_c s2 = sp_c e) by (unfold s2; ss; rewrite EQ1; reflexivity).
    assert (FS : flat_map (shl s2) l = flat_map (shl e) l). { apply flat_map_ext. intros y. apply V1. }
    assert (FO : flat_map (owned s2) l = flat_map (owned e) l). { apply flat_map_ext. intros y. unfold owned. destruct (V1 y) as (_ & -> & _). apply filter_ext. intros x. unfold ba, is_stat. rewrite A2. destruct (V1 (sa_ba (sp_a e x))) as (-> & _). reflexivity. }
    assert (FC : flat_map (ownedc s2) l = flat_map (ownedc e) l). { apply flat_map_ext. intros y. unfold ownedc. destruct (V1 y) as (_ & _ & -> & _). apply filter_ext. intros x. unfold is_stat. rewrite C2. destruct (V1 (sc_a (sp_c e x))) as (-> & _). reflexivity. }
    assert (Q2 : sp_didx s2 = sp_didx e /\ sp_sidx s2 = sp_sidx e /\ sp_cache s2 = sp_cache e /\ sp_arbs s2 = sp_arbs e /\ sp_cons s2 = sp_cons e /\ sp_dyn s2 = sp_dyn e) by (unfold s2; ss; rewrite EQ1; splits; reflexivity).
    destruct Q2 as (Q2 & Q3 & Q4 & Q5 & Q6 & Q7).
    rewrite deact_all.
    2:{ rewrite Q2. apply ICE. }
    2:{ rewrite FS. auto. }
    2:{ rewrite FS, Q2, Q3. auto. }
    2:{ intros y _. destruct (V1 y) as (_ & -> & _). apply ICE. }
    2:{ rewrite Q4. apply ICE. }
    2:{ rewrite Q5. apply ICE. }
    2:{ rewrite FO. auto. }
    2:{ rewrite FO, Q4, Q5. auto. }
    2:{ rewrite Q4. intros x y X Y. unfold same_shapes. rewrite A2. apply (i_uniq _ _ ICE); left; auto. }
    set (s3 := put s2 l).
    assert (D3 : sp_dyn s3 = dels l (dn ++ b :: td)) by (unfold s3, put; ss; now rewrite Q7; rewrite <- (j_dyn _ _ _ _ _ Jn)).
    assert (LDN : forall y, In y l -> ~ In y dn). { intros y Hy D. apply LU' in Hy as (Hy & _). apply nodup_app in ND as (_ & _ & ND). exact (ND y D Hy). }
    rewrite dels_app_r in D3 by auto.
    assert (B3 : sp_b s3 = sp_b s1) by reflexivity.
    assert (DI3 : forall y, In y (sp_dyn s3) <-> In y (sp_dyn s) /\ ~ In y l).
    { intros y. unfold s3, put. ss. rewrite Q7. unfold e. ss. apply dels_In. rewrite (j_dyn _ _ _ _ _ Jn). auto. }
    assert (SO : forall y, ~ In y l -> sp_b (er s3) y = sp_b e y).
    { intros y Ny. rewrite er_b, B3, (f_out _ _ _ _ _ M1 y Ny). unfold e. rewrite er_b. destruct (memb_spec y (sp_dyn s3)) as [D|D], (memb_spec y (sp_dyn s)) as [D'|D']; auto; rewrite DI3 in D; tauto. }
    assert (SI : forall y, In y l -> sp_b (er s3) y = sp_b s1 y). { intros y Ny. rewrite er_b, B3. destruct (memb_spec y (sp_dyn s3)) as [D|D]; auto. rewrite DI3 in D. tauto. }
    destruct (slept_core e (er s3) b t) as (I3 & LV3 & AC3); rewrite <- ?El; auto.
    { intros y. destruct (V1 y) as (A3 & A4 & A5 & A6 & A7 & A8). destruct (er_views s3 y) as (B4 & B5 & B6 & B7 & B8 & B9). rewrite B4, B5, B6, B7, B8, B9. splits; assumption. }
    { intros y Hy. unfold root. rewrite SI; auto. now apply (f_in _ _ _ _ _ M1). }
    { intros y Hy. unfold root, next. rewrite SO; auto. }
    { eapply chain_ext; [|exact CH]. intros y Hy. unfold next. rewrite SI; auto. }
    { unfold s3, s2, er, put, e; ss; rewrite EQ1; ss. splits; reflexivity. }
    { change (sp_dyn s3 = dels l (sp_dyn e)). unfold s3, put; ss. now rewrite Q7. }
    { change (sp_didx s3 = dels (flat_map (shl e) l) (sp_didx e)). unfold s3, put; ss. now rewrite Q2, FS. }
    { change (sp_sidx s3 = sp_sidx e ++ flat_map (shl e) l). unfold s3, put; ss. now rewrite Q3, FS. }
    { change (sp_cache s3 = dels (flat_map (owned e) l) (sp_cache e)). unfold s3, put; ss. now rewrite Q4, FO. }
    { change (sp_arbs s3 = sdels (flat_map (owned e) l) (sp_arbs e)). unfold s3, put; ss. now rewrite Q5, FO. }
    { change (sp_cons s3 = dels (flat_map (ownedc e) l) (sp_cons e)). unfold s3, put; ss. now rewrite Q6, FC. }
    { change (sp_sleep s1 ++ [b] = sp_sleep e ++ [b]). rewrite EQ1. reflexivity. }
    assert (LT : length (dels l (b :: td)) < fuel). { rewrite El. cbn [dels fold_left]. cbn [del]. rewrite Nat.eqb_refl. fold (dels t td). assert (Q := dels_length t td). lia. }
    assert (DT : forall y, In y (dels l (b :: td)) <-> In y (b :: td) /\ ~ In y l) by (intros y; apply dels_In; apply nodup_app in ND; tauto).
    apply (IH s3 dn (dels l (b :: td))); auto. constructor; auto.
    + constructor.
      * intros y. destruct (n_view _ _ _ FR y) as (A3 & A4 & A5 & A6 & A7 & A8), (V1 y) as (B4 & B5 & B6 & B7 & B8 & B9), (er_views s3 y) as (C4 & C5 & C6 & C7 & C8 & C9). rewrite C4, C5, C6, C7, C8, C9. splits; etransitivity; try eassumption.
      * destruct (n_eq _ _ _ FR) as (A3 & A4 & A5 & A6 & A7 & A8 & A9 & A10 & A11). unfold s3, s2, er, put; ss; rewrite EQ1; ss. splits; auto.
      * intros x. rewrite LV3. apply FR.
      * intros x. rewrite AC3. apply FR.
      * intros y q Rq. apply (n_old _ _ _ FR) in Rq. assert (Nl : ~ In y l). { intros D. apply LD in D. change (sp_dyn s) with (sp_dyn e) in D. apply (i_dyn _ _ ICE) in D. destruct D as (_ & _ & D). congruence. }
        unfold root. rewrite SO; auto.
      * intros y q Rq. destruct (in_dec Nat.eq_dec y l) as [D|D].
        -- right. splits; auto; [|now apply LU']. destruct (root s0 y) as [q'|] eqn:R0; auto. exfalso. apply (n_old _ _ _ FR) in R0. apply LD in D. change (sp_dyn s) with (sp_dyn e) in D. apply (i_dyn _ _ ICE) in D. destruct D as (_ & _ & D). congruence.
        -- unfold root in Rq. rewrite SO in Rq; auto. now apply (n_new _ _ _ FR) in Rq.
    + intros y Hy. unfold root, next. rewrite B3, (f_out _ _ _ _ _ M1); [now apply (j_dn _ _ _ _ _ Jn)|]. intros D. exact (LDN y D Hy).
    + intros y Hy Ky. apply DT in Hy as [Hy Nl]. unfold root, next. rewrite B3, (f_out _ _ _ _ _ M1) by auto. now apply (j_kin _ _ _ _ _ Jn).
    + intros y Hy Ky. apply DT in Hy as [Hy Nl]. unfold root at 1, next. rewrite B3, (f_out _ _ _ _ _ M1) by auto. intros Ry. destruct (j_unm _ _ _ _ _ Jn y Hy Ky Ry) as [U1 U2]. split; auto.
      intros o Ao Ko. destruct (U2 o Ao Ko) as [U3 U4]. assert (Nol : ~ In o l). { intros D. apply Nl. apply (CLD o y D); auto. now apply (adj_sym s0 []). }
      rewrite DT. splits; auto. unfold root. rewrite B3, (f_out _ _ _ _ _ M1) by auto. auto.
    + intros y [Hy|[Hy Ry]]; [apply (j_wit _ _ _ _ _ Jn); auto|]. apply DT in Hy as [Hy Nl]. unfold root in Ry. rewrite B3, (f_out _ _ _ _ _ M1) in Ry by auto. apply (j_wit _ _ _ _ _ Jn). auto.
Qed.

Theorem comp_ok thr s : Core s [] -> tltb t0 thr = true -> (forall b o, adj s b o -> kind s b = Dyn -> kind s o = Kin -> tltb (idle s b) thr = true) ->
  exists s', comp_loop (S (length (sp_dyn s))) thr s 0 = Some s' /\ Core s' [] /\ Fr thr s s' /\ (forall b, In b (sp_dyn s') -> exists y, conn s b y /\ tltb (idle s y) thr = true).
Proof.
  intros I TH KQ. assert (RD : forall b, In b (sp_dyn s) -> root s b = None /\ next s b = None). { intros b Hb. apply (i_dyn _ _ I) in Hb as (_ & _ & R). split; auto. now apply (i_next _ _ I). }
  assert (J0 : J thr s s [] (sp_dyn s)).
  { constructor; rewrite ?(er_id s RD); auto; try solve [intros b []].
    - apply fr_refl.
    - intros b Hb Kb _. split; [now apply RD|]. intros o Ao Ko. assert (Ro : root s o = None).
      { destruct (root s o) as [q|] eqn:Eo; auto. exfalso. destruct (RD b Hb) as [Rb _]. destruct (adj_inv s [] b o I Ao) as [(x & Tx & E)|(c & Hc & E)].
        - destruct (i_thr_cl _ _ I x q Tx) as [C1 C2]. destruct E as [[E1 E2]|[E1 E2]]; subst; [destruct (C2 Eo)|destruct (C1 Eo)]; congruence.
        - destruct (i_con_cl _ _ I c q Hc) as [C1 C2]. destruct E as [[E1 E2]|[E1 E2]]; subst; [destruct (C2 Eo)|destruct (C1 Eo)]; congruence. }
      split; auto. apply (i_dyn _ _ I). splits; auto; [|congruence].
      assert (P : present s o). { destruct (adj_inv s [] b o I Ao) as [(x & Tx & E)|(c & Hc & E)].
        - destruct (live_bodies s [] x I (or_intror Tx)) as (P1 & P2 & _). destruct E as [[E1 E2]|[E1 E2]]; subst; auto.
        - destruct (i_con_ok _ _ I c Hc) as (_ & P1 & P2). destruct E as [[E1 E2]|[E1 E2]]; subst; auto. }
      destruct P as [P| ->]; auto. destruct (i_sb _ _ I). congruence.
    - intros b [[]|[Hb Rb]]. destruct (RD b Hb). congruence. }
  destruct (loop_ok thr s I TH KQ (S (length (sp_dyn s))) s [] (sp_dyn s) J0) as (s' & dn & E & Jn); [lia|]. exists s'. 
  assert (EI : er s' = s'). { apply er_id. intros b. rewrite (j_dyn _ _ _ _ _ Jn), app_nil_r. apply Jn. }
  splits; auto.
  - rewrite <- EI. apply Jn.
  - rewrite <- EI. apply Jn.
  - intros b. rewrite (j_dyn _ _ _ _ _ Jn), app_nil_r. intros Hb. apply (j_wit _ _ _ _ _ Jn). auto.
Qed.
End Loop.
