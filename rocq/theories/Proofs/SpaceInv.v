(** The invariant of a space, and what waking and putting to sleep a component does. *)
From Coq Require Import List Arith NArith Bool Lia Permutation.
From Verif.Model Require Import HashSet Space.
From Verif.Proofs Require Import Util SpaceLib.
Import ListNotations.

Lemma upd_same {A} (h : nat -> A) p x : upd h p x p = x.
Proof. unfold upd. now rewrite Nat.eqb_refl. Qed.
Lemma upd_other {A} (h : nat -> A) p x q : q <> p -> upd h p x q = h q.
Proof. unfold upd. intros H. apply Nat.eqb_neq in H. now rewrite H. Qed.
Lemma upd_spec {A} (h : nat -> A) p x q : upd h p x q = if Nat.eqb q p then x else h q.
Proof. reflexivity. Qed.
Lemma kind_eqb_eq x y : kind_eqb x y = true <-> x = y.
Proof. destruct x, y; cbn; split; congruence. Qed.
Lemma kind_eqb_neq x y : kind_eqb x y = false <-> x <> y.
Proof. destruct x, y; cbn; split; congruence. Qed.
Lemma pair_eqb_sym a b c d : pair_eqb a b c d = pair_eqb c d a b.
Proof. unfold pair_eqb. rewrite (Nat.eqb_sym a c), (Nat.eqb_sym b d), (Nat.eqb_sym a d), (Nat.eqb_sym b c). f_equal. apply andb_comm. Qed.
Lemma pair_eqb_iff a b c d : pair_eqb a b c d = true <-> (a = c /\ b = d) \/ (a = d /\ b = c).
Proof. unfold pair_eqb. rewrite orb_true_iff, !andb_true_iff, !Nat.eqb_eq. reflexivity. Qed.
Lemma pair_eqb_refl a b : pair_eqb a b a b = true.
Proof. apply pair_eqb_iff. auto. Qed.

Section Inv.
Context {T : Type} `{Time T}.
Notation Sp := (Space T).
Implicit Types (s : Sp) (b x c r : nat).

(** views *)
Definition root s b := sb_root (sp_b s b).
Definition next s b := sb_next (sp_b s b).
Definition arbl s b := sb_arbs (sp_b s b).
Definition conl s b := sb_cons (sp_b s b).
Definition shl s b := sb_shapes (sp_b s b).
Definition inb s b := sb_in (sp_b s b) = true.
Definition ba s x := sa_ba (sp_a s x).
Definition bb s x := sa_bb (sp_a s x).
Definition threaded s x := In x (arbl s (ba s x)).
Definition live s x := In x (sp_cache s) \/ threaded s x.
Definition same_shapes s x y := pair_eqb (sa_a (sp_a s x)) (sa_b (sp_a s x)) (sa_a (sp_a s y)) (sa_b (sp_a s y)) = true.
Definition present s b := inb s b \/ b = sp_sb s.
Definition going (st : AState) := st = AFirst \/ st = ANormal.
Fixpoint chain s (p : option nat) (l : list nat) : Prop :=
  match l with [] => p = None | b :: l => p = Some b /\ chain s (next s b) l end.

(** [P]: arbiters that are in the list of active ones but not yet in the bodies' lists (inside Step) *)
Record Core s (P : list nat) : Prop := {
  i_lock : sp_locked s = 0;
  i_roused : sp_roused s = [];
  i_dyn_nd : NoDup (sp_dyn s);
  i_stat_nd : NoDup (sp_stat s);
  i_sleep_nd : NoDup (sp_sleep s);
  i_dyn : forall b, In b (sp_dyn s) <-> inb s b /\ kind s b <> Stat /\ root s b = None;
  i_stat : forall b, In b (sp_stat s) <-> inb s b /\ kind s b = Stat;
  i_nb : forall b, inb s b -> b < sp_nb s;
  i_sb : kind s (sp_sb s) = Stat /\ ~ inb s (sp_sb s);
  i_root : forall b r, root s b = Some r -> inb s b /\ kind s b = Dyn /\ In r (sp_sleep s) /\ exists l, chain s (Some r) l /\ In b l;
  i_comp : forall r, In r (sp_sleep s) -> exists l, chain s (Some r) (r :: l) /\ NoDup (r :: l) /\ forall y, In y (r :: l) -> root s y = Some r;
  i_next : forall b, root s b = None -> next s b = None;
  i_kin : forall b, kind s b = Kin -> sb_idle (sp_b s b) = t0;
  i_shp : forall x b, In x (shl s b) <-> ss_in (sp_s s x) = true /\ ss_body (sp_s s x) = b;
  i_shp_nd : forall b, NoDup (shl s b);
  i_didx_nd : NoDup (sp_didx s);
  i_sidx_nd : NoDup (sp_sidx s);
  i_didx : forall x, In x (sp_didx s) <-> ss_in (sp_s s x) = true /\ kind s (ss_body (sp_s s x)) <> Stat /\ root s (ss_body (sp_s s x)) = None;
  i_sidx : forall x, In x (sp_sidx s) <-> ss_in (sp_s s x) = true /\ (kind s (ss_body (sp_s s x)) = Stat \/ root s (ss_body (sp_s s x)) <> None);
  i_shp_body : forall x, ss_in (sp_s s x) = true -> present s (ss_body (sp_s s x));
  i_con : forall c b, In c (conl s b) <-> sc_in (sp_c s c) = true /\ (sc_a (sp_c s c) = b \/ sc_b (sp_c s c) = b);
  i_con_nd : forall b, NoDup (conl s b);
  i_con_ok : forall c, sc_in (sp_c s c) = true -> sc_a (sp_c s c) <> sc_b (sp_c s c) /\ present s (sc_a (sp_c s c)) /\ present s (sc_b (sp_c s c));
  i_cons_nd : NoDup (sp_cons s);
  i_cons : forall c, In c (sp_cons s) <-> sc_in (sp_c s c) = true /\ root s (sc_a (sp_c s c)) = None /\ root s (sc_b (sp_c s c)) = None;
  i_con_cl : forall c r, sc_in (sp_c s c) = true ->
    (root s (sc_a (sp_c s c)) = Some r -> kind s (sc_b (sp_c s c)) = Stat \/ root s (sc_b (sp_c s c)) = Some r) /\
    (root s (sc_b (sp_c s c)) = Some r -> kind s (sc_a (sp_c s c)) = Stat \/ root s (sc_a (sp_c s c)) = Some r);
  i_thr : forall x b, In x (arbl s b) -> (b = ba s x \/ b = bb s x) /\ In x (arbl s (ba s x)) /\ In x (arbl s (bb s x));
  i_thr_nd : forall b, NoDup (arbl s b);
  i_arbs_nd : NoDup (sp_arbs s);
  i_arbs : forall x, In x (sp_arbs s) -> In x (sp_cache s) /\ sa_stamp (sp_a s x) = sp_stamp s;
  i_pend : forall x, In x P <-> In x (sp_arbs s) /\ ~ threaded s x;
  i_awake : forall x, In x (sp_arbs s) -> threaded s x -> root s (ba s x) = None /\ root s (bb s x) = None;
  i_thr_st : forall x, threaded s x -> In x (sp_arbs s) \/ (~ In x (sp_cache s) /\ (root s (ba s x) <> None \/ root s (bb s x) <> None));
  i_thr_cl : forall x r, threaded s x ->
    (root s (ba s x) = Some r -> kind s (bb s x) = Stat \/ root s (bb s x) = Some r) /\
    (root s (bb s x) = Some r -> kind s (ba s x) = Stat \/ root s (ba s x) = Some r);
  i_cache_nd : NoDup (sp_cache s);
  i_live : forall x, live s x -> ss_in (sp_s s (sa_a (sp_a s x))) = true /\ ss_in (sp_s s (sa_b (sp_a s x))) = true /\
    ba s x = ss_body (sp_s s (sa_a (sp_a s x))) /\ bb s x = ss_body (sp_s s (sa_b (sp_a s x))) /\ ba s x <> bb s x;
  i_uniq : forall x y, live s x -> live s y -> same_shapes s x y -> x = y;
  i_pool_nd : NoDup (sp_pool s);
  i_pool : forall x, In x (sp_pool s) \/ sp_na s <= x -> ~ live s x
}.

(** ** Waking *)
Definition owned s b := filter (fun x => Nat.eqb b (ba s x) || is_stat s (ba s x)) (arbl s b).
Definition ownedc s b := filter (fun c => Nat.eqb b (sc_a (sp_c s c)) || is_stat s (sc_a (sp_c s c))) (conl s b).

Lemma each_move_out l : forall s, NoDup l -> NoDup (sp_sidx s) -> (forall x, In x l -> In x (sp_sidx s) /\ ~ In x (sp_didx s)) ->
  each idx_move_out s l = Some (set_didx (set_sidx s (dels l (sp_sidx s))) (sp_didx s ++ l)).
Proof.
  induction l as [|x l IH]; intros s ND NS H0; cbn [each].
  - cbn [dels fold_left]. rewrite app_nil_r. destruct s; reflexivity.
  - apply NoDup_cons_iff in ND as [N1 N2]. destruct (H0 x (or_introl eq_refl)) as [A B]. unfold idx_move_out at 1.
    apply memb_In in A. rewrite A. ss. apply memb_false in B. rewrite B. rewrite IH; ss; auto.
    + unfold dels. cbn [fold_left]. rewrite <- app_assoc. reflexivity.
    + now apply del_nodup.
    + intros y Hy. destruct (H0 y (or_intror Hy)) as [A' B']. split; [apply del_In; auto; split; auto; congruence|]. rewrite In_snoc. intros [C|C]; [auto|congruence].
Qed.
Lemma each_move_in l : forall s, NoDup l -> NoDup (sp_didx s) -> (forall x, In x l -> In x (sp_didx s) /\ ~ In x (sp_sidx s)) ->
  each idx_move_in s l = Some (set_sidx (set_didx s (dels l (sp_didx s))) (sp_sidx s ++ l)).
Proof.
  induction l as [|x l IH]; intros s ND NS H0; cbn [each].
  - cbn [dels fold_left]. rewrite app_nil_r. destruct s; reflexivity.
  - apply NoDup_cons_iff in ND as [N1 N2]. destruct (H0 x (or_introl eq_refl)) as [A B]. unfold idx_move_in at 1.
    apply memb_In in A. rewrite A. ss. apply memb_false in B. rewrite B. rewrite IH; ss; auto.
    + unfold dels. cbn [fold_left]. rewrite <- app_assoc. reflexivity.
    + now apply del_nodup.
    + intros y Hy. destruct (H0 y (or_intror Hy)) as [A' B']. split; [apply del_In; auto; split; auto; congruence|]. rewrite In_snoc. intros [C|C]; [auto|congruence].
Qed.

Definition own s b x := (Nat.eqb b (ba s x) || is_stat s (ba s x))%bool.
Definition ownc s b c := (Nat.eqb b (sc_a (sp_c s c)) || is_stat s (sc_a (sp_c s c)))%bool.
Lemma find_pair_none s a b : (forall y, In y (sp_cache s) -> pair_eqb a b (sa_a (sp_a s y)) (sa_b (sp_a s y)) = false) -> find_pair s a b = None.
Proof.
  unfold find_pair. intros H0. destruct (find _ _) as [y|] eqn:E; auto. apply find_some in E as [E1 E2]. rewrite H0 in E2; auto. discriminate.
Qed.
(** [same_arb s A]: the memory of arbiters changed in stamps only *)
Definition stamped s (l : list nat) (A : nat -> SArb) := forall x, A x = if memb x l then a_stamp (sp_a s x) (sp_stamp s) else sp_a s x.
Lemma each_restore_arb b l : forall s, NoDup l -> (forall x y, In x l -> own s b x = true -> In y (sp_cache s) -> ~ same_shapes s x y) ->
  (forall x y, In x l -> In y l -> same_shapes s x y -> x = y) ->
  exists A, each (restore_arb b) s l = Some (set_arbs (set_cache (set_a s A) (sp_cache s ++ filter (own s b) l)) (sp_arbs s ++ filter (own s b) l)) /\
    stamped s (filter (own s b) l) A.
Proof.
  induction l as [|x l IH]; intros s ND H1 H2; cbn [each filter].
  - exists (sp_a s). rewrite !app_nil_r. split; [destruct s; reflexivity|]. intros y. reflexivity.
  - apply NoDup_cons_iff in ND as [N1 N2]. unfold restore_arb at 1. change (Nat.eqb b (sa_ba (sp_a s x)) || is_stat s (sa_ba (sp_a s x))) with (own s b x).
    destruct (own s b x) eqn:O.
    + rewrite find_pair_none.
      2:{ intros y Hy. destruct (pair_eqb _ _ _ _) eqn:E; auto. destruct (H1 x y (or_introl eq_refl) O Hy E). }
      set (s1 := set_arbs _ _).
      assert (E1 : forall y, own s1 b y = own s b y). { intros y. unfold own, ba, is_stat, kind, s1. ss. rewrite upd_spec. now destruct (Nat.eqb_spec y x) as [->|]. }
      assert (E2 : forall y z, same_shapes s1 y z <-> same_shapes s y z). { intros y z. unfold same_shapes, s1. ss. rewrite !upd_spec. destruct (Nat.eqb_spec y x) as [->|], (Nat.eqb_spec z x) as [->|]; reflexivity. }
      destruct (IH s1 N2) as (A & EA & HA).
      { intros y z Hy Oy Hz. rewrite E1 in Oy. rewrite E2. unfold s1 in Hz. ss. apply In_snoc in Hz as [Hz|Hz]; [apply H1; cbn; auto|]. subst z. intros SS. apply N1. rewrite (H2 x y); cbn; auto. unfold same_shapes in *. now rewrite pair_eqb_sym. }
      { intros y z Hy Hz SS. apply H2; cbn; auto. now apply E2. }
      exists A. rewrite EA. split.
      * f_equal. unfold s1. ss. rewrite (filter_ext _ _ E1). now rewrite <- !app_assoc.
      * intros y. rewrite HA. rewrite (filter_ext _ _ E1). unfold s1. ss. rewrite upd_spec. cbn [memb existsb]. fold (memb y (filter (own s b) l)).
        destruct (Nat.eqb_spec y x) as [->|]; cbn [orb]; [|reflexivity]. destruct (memb x _); reflexivity.
    + destruct (IH s N2) as (A & EA & HA); [intros; apply H1; cbn; auto|intros; apply H2; cbn; auto|]. exists A. auto.
Qed.
Lemma each_restore_con b l : forall s, each (restore_con b) s l = Some (set_cons s (sp_cons s ++ filter (ownc s b) l)).
Proof.
  induction l as [|c l IH]; intros s; cbn [each filter]; [rewrite app_nil_r; destruct s; reflexivity|].
  unfold restore_con at 1. fold (ownc s b c). destruct (ownc s b c) eqn:O.
  - rewrite IH. ss. rewrite (filter_ext (ownc (set_cons s (sp_cons s ++ [c])) b) (ownc s b)) by reflexivity. now rewrite <- app_assoc.
  - apply IH.
Qed.

(** the effect of waking the bodies [l] of a component *)
Record Woke s s' (l : list nat) : Prop := {
  w_b : forall x, sp_b s' x = if memb x l then b_next (b_root (b_idle (sp_b s x) t0) None) None else sp_b s x;
  w_s : sp_s s' = sp_s s; w_c : sp_c s' = sp_c s;
  w_a : forall x, sp_a s' x = if memb x (flat_map (owned s) l) then a_stamp (sp_a s x) (sp_stamp s) else sp_a s x;
  w_dyn : sp_dyn s' = sp_dyn s ++ l; w_stat : sp_stat s' = sp_stat s; w_sleep : sp_sleep s' = sp_sleep s; w_roused : sp_roused s' = sp_roused s;
  w_didx : sp_didx s' = sp_didx s ++ flat_map (shl s) l; w_sidx : sp_sidx s' = dels (flat_map (shl s) l) (sp_sidx s);
  w_arbs : sp_arbs s' = sp_arbs s ++ flat_map (owned s) l; w_cache : sp_cache s' = sp_cache s ++ flat_map (owned s) l;
  w_cons : sp_cons s' = sp_cons s ++ flat_map (ownedc s) l; w_pool : sp_pool s' = sp_pool s;
  w_locked : sp_locked s' = sp_locked s; w_stamp : sp_stamp s' = sp_stamp s; w_log : sp_log s' = sp_log s; w_nb : sp_nb s' = sp_nb s; w_na : sp_na s' = sp_na s; w_sb : sp_sb s' = sp_sb s }.
Lemma woke_one s b : sp_locked s = 0 -> NoDup (shl s b) -> NoDup (sp_sidx s) -> (forall x, In x (shl s b) -> In x (sp_sidx s) /\ ~ In x (sp_didx s)) ->
  NoDup (arbl s b) -> (forall x y, In x (owned s b) -> In y (sp_cache s) -> ~ same_shapes s x y) ->
  (forall x y, In x (arbl s b) -> In y (arbl s b) -> same_shapes s x y -> x = y) ->
  exists s', wake_one s b = Some s' /\ Woke s s' [b].
Proof.
  intros L0 N1 N2 H1 N3 H2 H3. unfold wake_one. set (s0 := upd_b s b _).
  assert (B0 : forall x, sp_b s0 x = if Nat.eqb x b then b_next (b_root (b_idle (sp_b s x) t0) None) None else sp_b s x).
  { intros x. unfold s0. ss. rewrite upd_spec. now destruct (Nat.eqb_spec x b) as [->|]. }
  assert (K0 : forall x, kind s0 x = kind s x). { intros x. unfold kind. rewrite B0. now destruct (Nat.eqb x b). }
  assert (A0 : forall x, arbl s0 x = arbl s x). { intros x. unfold arbl. rewrite B0. now destruct (Nat.eqb x b). }
  assert (S0 : forall x, shl s0 x = shl s x). { intros x. unfold shl. rewrite B0. now destruct (Nat.eqb x b). }
  assert (C0 : forall x, conl s0 x = conl s x). { intros x. unfold conl. rewrite B0. now destruct (Nat.eqb x b). }
  assert (O0 : forall x, own s0 b x = own s b x). { intros x. unfold own, is_stat. now rewrite K0. }
  assert (OC0 : forall x, ownc s0 b x = ownc s b x). { intros x. unfold ownc, is_stat. now rewrite K0. }
  unfold space_activate. change (sp_locked s0) with (sp_locked s). rewrite L0. cbn [Nat.eqb negb].
  set (s1 := set_dyn s0 _). change (sb_shapes (bod s1 b)) with (shl s0 b). rewrite S0.
  rewrite each_move_out; auto.
  set (s2 := set_didx _ _). change (sb_arbs (bod s2 b)) with (arbl s0 b). rewrite A0.
  destruct (each_restore_arb b (arbl s b) s2) as (A & E & HA); auto.
  { intros x y Hx Ox Hy. apply (H2 x y); auto. unfold owned. apply filter_In. split; auto. change (own s0 b x = true) in Ox. rewrite O0 in Ox. exact Ox. }
  rewrite E. set (s3 := set_arbs _ _). change (sb_cons (bod s3 b)) with (conl s0 b). rewrite C0. rewrite each_restore_con.
  eexists. split; [reflexivity|].
  assert (F1 : filter (own s2 b) (arbl s b) = owned s b) by (unfold owned; apply filter_ext; intros; apply O0).
  assert (F2 : filter (ownc s3 b) (conl s b) = ownedc s b).
  { unfold ownedc; apply filter_ext; intros c. unfold ownc, is_stat, kind, s3. ss. change (sp_b s2) with (sp_b s0). rewrite B0. change (sp_c s2) with (sp_c s).
    destruct (Nat.eqb_spec (sc_a (sp_c s c)) b) as [Eb|]; [|reflexivity]. reflexivity. }
  rewrite F2. constructor; unfold s3; ss; cbn [flat_map]; rewrite ?F1, ?app_nil_r; try reflexivity.
  - intros x. transitivity (sp_b s0 x); [reflexivity|]. rewrite B0. cbn [memb existsb]. now rewrite orb_false_r.
  - intros x. rewrite HA, F1. reflexivity.
Qed.

Lemma woke_comp s s1 s' b l : Woke s s1 [b] -> Woke s1 s' l -> ~ In b l -> Woke s s' (b :: l).
Proof.
  intros W1 W2 N.
  assert (B1 : forall x, sp_b s1 x = if Nat.eqb x b then b_next (b_root (b_idle (sp_b s x) t0) None) None else sp_b s x).
  { intros x. rewrite (w_b _ _ _ W1). cbn [memb existsb]. now rewrite orb_false_r. }
  assert (SH : forall x, shl s1 x = shl s x) by (intros x; unfold shl; rewrite B1; now destruct (Nat.eqb x b)).
  assert (K : forall x, kind s1 x = kind s x) by (intros x; unfold kind; rewrite B1; now destruct (Nat.eqb x b)).
  assert (A : forall x, arbl s1 x = arbl s x) by (intros x; unfold arbl; rewrite B1; now destruct (Nat.eqb x b)).
  assert (C : forall x, conl s1 x = conl s x) by (intros x; unfold conl; rewrite B1; now destruct (Nat.eqb x b)).
  assert (AB : forall x, ba s1 x = ba s x) by (intros x; unfold ba; rewrite (w_a _ _ _ W1); now destruct (memb x _)).
  assert (O : forall x, owned s1 x = owned s x). { intros x. unfold owned. rewrite A. apply filter_ext. intros y. unfold is_stat. now rewrite K, AB. }
  assert (OC : forall x, ownedc s1 x = ownedc s x). { intros x. unfold ownedc. rewrite C. apply filter_ext. intros y. unfold is_stat. rewrite K. now rewrite (w_c _ _ _ W1). }
  assert (FE : forall (f g : nat -> list nat) m, (forall x, f x = g x) -> flat_map f m = flat_map g m). { intros f g m E. induction m; cbn; congruence. }
  constructor.
  - intros x. rewrite (w_b _ _ _ W2), B1. cbn [memb existsb]. fold (memb x l). destruct (Nat.eqb_spec x b) as [->|]; cbn [orb]; [|reflexivity].
    apply memb_false in N. now rewrite N.
  - rewrite (w_s _ _ _ W2). apply W1.
  - rewrite (w_c _ _ _ W2). apply W1.
  - intros x. rewrite (w_a _ _ _ W2), (w_a _ _ _ W1), (w_stamp _ _ _ W1). cbn [flat_map]. rewrite app_nil_r, memb_app, (FE _ _ _ O).
    destruct (memb x (owned s b)), (memb x (flat_map (owned s) l)); reflexivity.
  - rewrite (w_dyn _ _ _ W2), (w_dyn _ _ _ W1), <- app_assoc. reflexivity.
  - rewrite (w_stat _ _ _ W2). apply W1.
  - rewrite (w_sleep _ _ _ W2). apply W1.
  - rewrite (w_roused _ _ _ W2). apply W1.
  - rewrite (w_didx _ _ _ W2), (w_didx _ _ _ W1). cbn [flat_map]. rewrite app_nil_r, (FE _ _ _ SH), <- app_assoc. reflexivity.
  - rewrite (w_sidx _ _ _ W2), (w_sidx _ _ _ W1). cbn [flat_map]. rewrite app_nil_r, (FE _ _ _ SH), dels_app. reflexivity.
  - rewrite (w_arbs _ _ _ W2), (w_arbs _ _ _ W1). cbn [flat_map]. rewrite app_nil_r, (FE _ _ _ O), <- app_assoc. reflexivity.
  - rewrite (w_cache _ _ _ W2), (w_cache _ _ _ W1). cbn [flat_map]. rewrite app_nil_r, (FE _ _ _ O), <- app_assoc. reflexivity.
  - rewrite (w_cons _ _ _ W2), (w_cons _ _ _ W1). cbn [flat_map]. rewrite app_nil_r, (FE _ _ _ OC), <- app_assoc. reflexivity.
  - rewrite (w_pool _ _ _ W2). apply W1.
  - rewrite (w_locked _ _ _ W2). apply W1.
  - rewrite (w_stamp _ _ _ W2). apply W1.
  - rewrite (w_log _ _ _ W2). apply W1.
  - rewrite (w_nb _ _ _ W2). apply W1.
  - rewrite (w_na _ _ _ W2). apply W1.
  - rewrite (w_sb _ _ _ W2). apply W1.
Qed.
Lemma woke_nil s : Woke s s [].
Proof. constructor; cbn [flat_map]; rewrite ?app_nil_r; auto. Qed.

Lemma woke_all : forall l s, sp_locked s = 0 -> NoDup l -> NoDup (sp_sidx s) -> NoDup (flat_map (shl s) l) ->
  (forall x, In x (flat_map (shl s) l) -> In x (sp_sidx s) /\ ~ In x (sp_didx s)) ->
  (forall b, In b l -> NoDup (arbl s b)) ->
  NoDup (flat_map (owned s) l) ->
  (forall x y, In x (flat_map (owned s) l) -> In y (sp_cache s) -> ~ same_shapes s x y) ->
  (forall x y, In x (flat_map (arbl s) l) -> In y (flat_map (arbl s) l) -> same_shapes s x y -> x = y) ->
  exists s', each wake_one s l = Some s' /\ Woke s s' l.
Proof.
  induction l as [|b l IH]; intros s L0 N0 N1 N2 H1 N3 N4 H2 H3; cbn [each]; [exists s; split; [reflexivity|apply woke_nil]|].
  apply NoDup_cons_iff in N0 as [N0 N0']. cbn [flat_map] in *. apply nodup_app in N2 as (N2a & N2b & N2c). apply nodup_app in N4 as (N4a & N4b & N4c).
  destruct (woke_one s b) as (s1 & E1 & W1); auto.
  { intros x Hx. apply H1. apply in_app_iff. auto. }
  { apply N3; cbn; auto. }
  { intros x y Hx. apply H2. apply in_app_iff. auto. }
  { intros x y Hx Hy. apply H3; apply in_app_iff; auto. }
  rewrite E1.
  assert (B1 : forall x, sp_b s1 x = if Nat.eqb x b then b_next (b_root (b_idle (sp_b s x) t0) None) None else sp_b s x).
  { intros x. rewrite (w_b _ _ _ W1). cbn [memb existsb]. now rewrite orb_false_r. }
  assert (SH : forall x, shl s1 x = shl s x) by (intros x; unfold shl; rewrite B1; now destruct (Nat.eqb x b)).
  assert (K : forall x, kind s1 x = kind s x) by (intros x; unfold kind; rewrite B1; now destruct (Nat.eqb x b)).
  assert (A : forall x, arbl s1 x = arbl s x) by (intros x; unfold arbl; rewrite B1; now destruct (Nat.eqb x b)).
  assert (AB : forall x, ba s1 x = ba s x) by (intros x; unfold ba; rewrite (w_a _ _ _ W1); now destruct (memb x _)).
  assert (O : forall x, owned s1 x = owned s x). { intros x. unfold owned. rewrite A. apply filter_ext. intros y. unfold is_stat. now rewrite K, AB. }
  assert (FE : forall (f g : nat -> list nat) m, (forall x, f x = g x) -> flat_map f m = flat_map g m). { intros f g m E. induction m; cbn; congruence. }
  assert (SS : forall x y, same_shapes s1 x y <-> same_shapes s x y). { intros x y. unfold same_shapes. rewrite !(w_a _ _ _ W1). destruct (memb x _), (memb y _); reflexivity. }
  destruct (IH s1) as (s' & E' & W'); auto.
  - now rewrite (w_locked _ _ _ W1).
  - rewrite (w_sidx _ _ _ W1). now apply dels_nodup.
  - now rewrite (FE _ _ _ SH).
  - intros x Hx. rewrite (FE _ _ _ SH) in Hx. destruct (H1 x) as [I1 I2]; [apply in_app_iff; auto|].
    rewrite (w_sidx _ _ _ W1), (w_didx _ _ _ W1). cbn [flat_map]. rewrite app_nil_r. split.
    + apply dels_In; auto. split; auto. intros Hx'. eapply N2c; eauto.
    + rewrite in_app_iff. intros [D|D]; auto. eapply N2c; eauto.
  - intros x Hx. rewrite A. apply N3. cbn. auto.
  - now rewrite (FE _ _ _ O).
  - intros x y Hx Hy. rewrite (FE _ _ _ O) in Hx. rewrite SS. rewrite (w_cache _ _ _ W1) in Hy. cbn [flat_map] in Hy. rewrite app_nil_r in Hy.
    apply in_app_iff in Hy as [Hy|Hy]; [apply H2; auto; apply in_app_iff; auto|].
    intros S0. assert (x = y).
    { apply H3; auto; apply in_app_iff; [right|left].
      - apply in_flat_map in Hx as (z & Z1 & Z2). apply in_flat_map. exists z. split; auto. unfold owned in Z2. apply filter_In in Z2. tauto.
      - unfold owned in Hy. apply filter_In in Hy. tauto. }
    subst y. eapply N4c; eauto.
  - intros x y Hx Hy. rewrite SS. rewrite (FE _ _ _ A) in Hx, Hy. apply H3; apply in_app_iff; auto.
  - exists s'. split; auto. eapply woke_comp; eauto.
Qed.
End Inv.
