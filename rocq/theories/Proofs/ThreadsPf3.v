(** The intrusive lists of constraints *)
From Coq Require Import Arith Bool List Lia.
From Verif Require Import SpecThreads.
From Verif.Model Require Import Threads.
From Verif.Proofs Require Import ThreadsPf ThreadsPf2.
Import ListNotations.
Local Open Scope nat_scope.

Definition kside (h : KHeap) (c b : nat) : bool := kc_a (kh_con h c) =? b.
Definition kset (h : KHeap) (c b : nat) (v : option nat) : KHeap := if kside h c b then set_na h c v else set_nb h c v.
Definition touches (ends : nat -> nat * nat) (b c : nat) : bool := (fst (ends c) =? b) || (snd (ends c) =? b).
Definition kbodies (h : KHeap) (ends : nat -> nat * nat) : Prop := forall c, (kc_a (kh_con h c), kc_b (kh_con h c)) = ends c.

Lemma kset_bodies h ends c b v : kbodies h ends -> kbodies (kset h c b v) ends.
Proof.
  intros B d. unfold kset. destruct (kside h c b); cbn; unfold put; destruct (d =? c) eqn:E; try apply B; cbn; apply Nat.eqb_eq in E; subst d; apply B.
Qed.
Lemma kset_next h c b v d e : con_next (kset h c b v) d e = if (d =? c) && Bool.eqb (kside h c b) (kside h c e) then v else con_next h d e.
Proof.
  unfold con_next, kset, kside. destruct (kc_a (kh_con h c) =? b) eqn:S; cbn; unfold put; destruct (d =? c) eqn:E; try reflexivity; apply Nat.eqb_eq in E; subst d; cbn;
    destruct (kc_a (kh_con h c) =? e); reflexivity.
Qed.
Lemma kset_list h c b v e : kh_list (kset h c b v) e = kh_list h e.
Proof. unfold kset. destruct (kside h c b); reflexivity. Qed.
Lemma kside_diff h ends c b d : kbodies h ends -> touches ends b c = true -> touches ends d c = true -> b <> d -> kside h c b <> kside h c d.
Proof.
  intros B Ib Ic N. unfold kside, touches in *. specialize (B c). rewrite <- B in *. cbn [fst snd] in *.
  destruct (kc_a (kh_con h c) =? b) eqn:Eb; destruct (kc_a (kh_con h c) =? d) eqn:Ec; try discriminate; cbn [orb] in *.
  - apply Nat.eqb_eq in Eb, Ec. congruence.
  - apply Nat.eqb_eq in Ib, Ic. congruence.
Qed.

Fixpoint chain (h : KHeap) (b : nat) (l : list nat) : Prop :=
  match l with [] => True | x :: r => con_next h x b = hd_error r /\ chain h b r end.
Lemma chain_ext h h' b : forall l, (forall x, In x l -> con_next h' x b = con_next h x b) -> chain h b l -> chain h' b l.
Proof.
  induction l as [|x r IH]; intros E; [auto|]. cbn. intros (A & B). split; [rewrite E by (now left); exact A|]. apply IH; [|exact B]. intros y Hy. apply E. now right.
Qed.
Lemma chain_clist h b v d l : chain (set_clist h b v) d l = chain h d l.
Proof. induction l as [|x r IH]; [reflexivity|]. cbn [chain]. rewrite IH. reflexivity. Qed.
Lemma chain_walk h b : forall l fuel, length l <= fuel -> chain h b l -> con_walk fuel h b (hd_error l) = Some l.
Proof.
  induction l as [|x r IH]; intros fuel L D; [destruct fuel; reflexivity|]. destruct fuel as [|fuel]; [cbn in L; lia|].
  destruct D as (A & B). cbn [hd_error con_walk]. rewrite A, (IH fuel); [reflexivity|cbn in L; lia|exact B].
Qed.

Lemma filter_cons_ok ends b c l2 : forall l1 h fuel, length l1 < fuel -> kbodies h ends -> NoDup (l1 ++ c :: l2) ->
  (forall y, In y (l1 ++ c :: l2) -> touches ends b y = true) -> chain h b (l1 ++ c :: l2) ->
  exists h', filter_cons fuel h (hd_error (l1 ++ c :: l2)) b c = Some (h', hd_error (l1 ++ l2)) /\ kbodies h' ends /\ chain h' b (l1 ++ l2) /\
    (forall d, kh_list h' d = kh_list h d) /\ (forall d y, d <> b -> touches ends d y = true -> con_next h' y d = con_next h y d).
Proof.
  induction l1 as [|x r IH]; intros h fuel L B Nd Iv D.
  - destruct fuel as [|fuel]; [lia|]. cbn [app hd_error filter_cons]. rewrite Nat.eqb_refl. destruct D as (A & D). rewrite A. exists h. auto.
  - destruct fuel as [|fuel]; [cbn in L; lia|]. cbn [app] in *. destruct D as (A & D). inversion Nd as [|? ? N1 N2]; subst.
    destruct (IH h fuel ltac:(cbn in L; lia) B N2 (fun y Hy => Iv y (or_intror Hy)) D) as (h1 & E & B1 & C1 & L1 & T1). cbn [hd_error filter_cons].
    assert (Nxc : x <> c) by (intros ->; apply N1, in_or_app; right; now left). rewrite (proj2 (Nat.eqb_neq x c) Nxc).
    assert (Hx : touches ends b x = true) by (apply Iv; now left).
    assert (Ks : kside h1 x b = kside h x b) by (unfold kside; pose proof (B x) as P; pose proof (B1 x) as P1; congruence).
    assert (Nl : ~ In x (r ++ l2)) by (intros X; apply N1; apply in_app_iff in X; apply in_or_app; destruct X; [now left|right; now right]).
    exists (kset h1 x b (hd_error (r ++ l2))). split; [|split; [|split; [|split]]].
    + unfold kset. rewrite Ks. unfold con_next in A. unfold kside. destruct (kc_a (kh_con h x) =? b); rewrite A, E; reflexivity.
    + now apply kset_bodies.
    + split.
      * rewrite kset_next, Nat.eqb_refl, Bool.eqb_reflx. reflexivity.
      * apply (chain_ext h1); [|exact C1]. intros y Hy. rewrite kset_next. rewrite (proj2 (Nat.eqb_neq y x)); [reflexivity|]. intros ->. contradiction.
    + intros d. rewrite kset_list. apply L1.
    + intros d y N I. rewrite kset_next. destruct (y =? x) eqn:Q; [|now apply T1]. apply Nat.eqb_eq in Q. subst y. cbn [andb].
      rewrite eqb_diff; [now apply T1|]. apply (kside_diff h1 ends); auto.
Qed.

Definition kl (ends : nat -> nat * nat) (l : list nat) (b : nat) : list nat := filter (touches ends b) l.
Record krepr (ends : nat -> nat * nat) (h : KHeap) (l : list nat) : Prop := mkKR {
  k_bodies : kbodies h ends;
  k_nodup : NoDup l;
  k_diff : forall c, In c l -> fst (ends c) <> snd (ends c);
  k_list : forall b, kh_list h b = hd_error (kl ends l b) /\ chain h b (kl ends l b) }.
Lemma kl_in ends l b c : In c (kl ends l b) <-> In c l /\ touches ends b c = true.
Proof. apply filter_In. Qed.

Lemma set_na_kset h c v a : a = kc_a (kh_con h c) -> set_na h c v = kset h c a v.
Proof. intros ->. unfold kset, kside. now rewrite Nat.eqb_refl. Qed.
Lemma set_nb_kset h c v b : kc_a (kh_con h c) <> b -> set_nb h c v = kset h c b v.
Proof. intros N. unfold kset, kside. now rewrite (proj2 (Nat.eqb_neq _ _) N). Qed.

Lemma add_repr ends h l c : krepr ends h l -> fst (ends c) <> snd (ends c) -> ~ In c l -> krepr ends (add_con h c) (c :: l).
Proof.
  intros [B Nd Df Ls] Nab Nc. pose proof (B c) as Pc. unfold add_con. set (a := kc_a (kh_con h c)) in *. set (b := kc_b (kh_con h c)) in *.
  rewrite <- Pc in Nab. cbn [fst snd] in Nab. rewrite (set_na_kset h c (kh_list h a) a eq_refl). set (h1 := kset h c a (kh_list h a)).
  assert (B1 : kbodies h1 ends) by now apply kset_bodies.
  assert (A1 : kc_a (kh_con h1 c) = a) by (specialize (B1 c); congruence).
  assert (Lb1 : kh_list (set_clist h1 a (Some c)) b = kh_list h b) by (cbn; rewrite put_ne by congruence; apply kset_list). rewrite Lb1.
  rewrite (set_nb_kset (set_clist h1 a (Some c)) c (kh_list h b) b) by (cbn; congruence).
  set (h2 := kset (set_clist h1 a (Some c)) c b (kh_list h b)).
  assert (Ta : touches ends a c = true) by (unfold touches; rewrite <- Pc; cbn; now rewrite Nat.eqb_refl).
  assert (Tb : touches ends b c = true) by (unfold touches; rewrite <- Pc; cbn; rewrite Nat.eqb_refl; apply orb_true_r).
  assert (To : forall d, d <> a -> d <> b -> touches ends d c = false).
  { intros d Na Nb. unfold touches. rewrite <- Pc. cbn. rewrite (proj2 (Nat.eqb_neq a d)), (proj2 (Nat.eqb_neq b d)) by congruence. reflexivity. }
  assert (Nx : forall d y, con_next h2 y d = if y =? c then if d =? a then kh_list h a else if d =? b then kh_list h b else con_next h2 y d else con_next h y d).
  { intros d y. destruct (y =? c) eqn:E.
    - apply Nat.eqb_eq in E. subst y. destruct (d =? a) eqn:Da; [|destruct (d =? b) eqn:Db; [|reflexivity]].
      + apply Nat.eqb_eq in Da. subst d. unfold h2. rewrite kset_next, Nat.eqb_refl. cbn [andb]. unfold kside. cbn [set_clist kh_con]. rewrite A1.
        rewrite (proj2 (Nat.eqb_neq a b) Nab), Nat.eqb_refl. cbn [Bool.eqb]. change (con_next (set_clist h1 a (Some c)) c a) with (con_next h1 c a). unfold h1.
        rewrite kset_next, Nat.eqb_refl, Bool.eqb_reflx. reflexivity.
      + apply Nat.eqb_eq in Db. subst d. unfold h2. rewrite kset_next, Nat.eqb_refl, Bool.eqb_reflx. reflexivity.
    - unfold h2. rewrite kset_next, E. cbn [andb]. change (con_next (set_clist h1 a (Some c)) y d) with (con_next h1 y d). unfold h1. rewrite kset_next, E. reflexivity. }
  assert (Ch : forall d, chain h2 d (kl ends l d)).
  { intros d. apply (chain_ext h); [|apply Ls]. intros y Hy. rewrite Nx. rewrite (proj2 (Nat.eqb_neq y c)); [reflexivity|]. intros ->. apply kl_in in Hy. now apply Nc. }
  constructor.
  - change (kbodies h2 ends). now apply kset_bodies.
  - now constructor.
  - intros y [<-|Hy]; [rewrite <- Pc; exact Nab|now apply Df].
  - intros d. unfold kl. cbn [filter].
    rewrite chain_clist. fold (kl ends l d). cbn [set_clist kh_list].
    destruct (Nat.eq_dec d b) as [->|Nb]; [|destruct (Nat.eq_dec d a) as [->|Na]].
    + rewrite Tb, put_eq. split; [reflexivity|]. cbn. split; [|apply Ch]. rewrite Nx, Nat.eqb_refl, Nat.eqb_refl, (proj2 (Nat.eqb_neq b a)) by congruence. apply Ls.
    + rewrite Ta, put_ne by exact Nb. unfold h2. rewrite kset_list. cbn [set_clist kh_list]. rewrite put_eq. split; [reflexivity|]. split; [|apply Ch].
      fold h2. rewrite Nx, !Nat.eqb_refl. apply Ls.
    + rewrite (To d Na Nb), put_ne by exact Nb. unfold h2. rewrite kset_list. cbn [set_clist kh_list]. rewrite put_ne by exact Na. unfold h1. rewrite kset_list.
      split; [apply Ls|apply Ch].
Qed.

Lemma kl_rem ends l b c : kl ends (filter (fun d => negb (d =? c)) l) b = filter (fun d => negb (d =? c)) (kl ends l b).
Proof. apply filter_comm. Qed.
Lemma filter_le {A} (f : A -> bool) l : length (filter f l) <= length l.
Proof. induction l as [|x r IH]; [apply le_n|]. cbn. destruct (f x); cbn; lia. Qed.

Lemma rem_repr ends h l c fuel : krepr ends h l -> In c l -> length l <= fuel ->
  exists h', remove_con fuel h c = Some h' /\ krepr ends h' (filter (fun d => negb (d =? c)) l).
Proof.
  intros [B Nd Df Ls] Hc Hf. pose proof (B c) as Pc. pose proof (Df c Hc) as Nab. rewrite <- Pc in Nab. cbn [fst snd] in Nab.
  unfold remove_con. set (a := kc_a (kh_con h c)) in *. set (b := kc_b (kh_con h c)) in *.
  assert (Ta : touches ends a c = true) by (unfold touches; rewrite <- Pc; cbn; now rewrite Nat.eqb_refl).
  assert (Tb : touches ends b c = true) by (unfold touches; rewrite <- Pc; cbn; rewrite Nat.eqb_refl; apply orb_true_r).
  assert (To : forall d, d <> a -> d <> b -> touches ends d c = false).
  { intros d Na Nb. unfold touches. rewrite <- Pc. cbn. rewrite (proj2 (Nat.eqb_neq a d)), (proj2 (Nat.eqb_neq b d)) by congruence. reflexivity. }
  assert (Ndl : forall d, NoDup (kl ends l d)) by (intros d; now apply NoDup_filter).
  assert (Xa : In c (kl ends l a)) by (apply kl_in; now split). assert (Xb : In c (kl ends l b)) by (apply kl_in; now split).
  apply in_split in Xa, Xb. destruct Xa as (la & ra & Ea). destruct Xb as (lb & rb & Eb).
  pose proof (Ndl a) as Na. pose proof (Ndl b) as Nb. rewrite Ea in Na. rewrite Eb in Nb.
  assert (Fa : length la < fuel) by (pose proof (filter_le (touches ends a) l) as G; fold (kl ends l a) in G; rewrite Ea, app_length in G; cbn in G; lia).
  assert (Fb : length lb < fuel) by (pose proof (filter_le (touches ends b) l) as G; fold (kl ends l b) in G; rewrite Eb, app_length in G; cbn in G; lia).
  destruct (Ls a) as (La & Da). destruct (Ls b) as (Lb & Db). rewrite Ea in La, Da. rewrite Eb in Lb, Db.
  destruct (filter_cons_ok ends a c ra la h fuel) as (h1 & E1 & B1 & C1 & L1 & T1); auto.
  { intros y Hy. rewrite <- Ea in Hy. now apply kl_in in Hy. }
  unfold body_remove_con at 1. rewrite La, E1.
  set (h2 := set_clist h1 a (hd_error (la ++ ra))).
  destruct (filter_cons_ok ends b c rb lb h2 fuel) as (h3 & E3 & B3 & C3 & L3 & T3); auto.
  { intros y Hy. rewrite <- Eb in Hy. now apply kl_in in Hy. }
  { apply (chain_ext h); [|exact Db]. intros y Hy. change (con_next h2 y b) with (con_next h1 y b). apply T1; [congruence|]. rewrite <- Eb in Hy. now apply kl_in in Hy. }
  assert (Lb2 : kh_list h2 b = hd_error (lb ++ c :: rb)) by (cbn; rewrite put_ne by congruence; rewrite L1; exact Lb).
  assert (Kb : kc_b (kh_con h2 c) = b) by (specialize (B1 c); cbn; congruence).
  unfold body_remove_con. fold h2. rewrite Kb, Lb2, E3. eexists. split; [reflexivity|].
  assert (Ga : kl ends (filter (fun d => negb (d =? c)) l) a = la ++ ra) by (rewrite kl_rem, Ea; now apply filter_split).
  assert (Gb : kl ends (filter (fun d => negb (d =? c)) l) b = lb ++ rb) by (rewrite kl_rem, Eb; now apply filter_split).
  constructor.
  - exact B3.
  - now apply NoDup_filter.
  - intros y Hy. apply filter_In in Hy. now apply Df.
  - intros d. rewrite chain_clist. cbn [set_clist kh_list].
    destruct (Nat.eq_dec d b) as [->|Ndb]; [|destruct (Nat.eq_dec d a) as [->|Nda]].
    + rewrite Gb, put_eq. now split.
    + rewrite Ga, put_ne by exact Ndb. rewrite L3. cbn [h2 set_clist kh_list]. rewrite put_eq. split; [reflexivity|].
      apply (chain_ext h1); [|exact C1]. intros y Hy. change (con_next h1 y a) with (con_next h2 y a). apply T3; [exact Ndb|].
      rewrite <- Ga, kl_rem in Hy. apply filter_In in Hy. destruct Hy as (Hy & _). now apply kl_in in Hy.
    + assert (Ec : kl ends (filter (fun d => negb (d =? c)) l) d = kl ends l d).
      { rewrite kl_rem. apply filter_out. intros Hy. apply kl_in in Hy. rewrite To in Hy by assumption. now destruct Hy. }
      rewrite Ec, put_ne by exact Ndb. rewrite L3. cbn [h2 set_clist kh_list]. rewrite put_ne by exact Nda. rewrite L1. destruct (Ls d) as (Ld & Dd). split; [exact Ld|].
      apply (chain_ext h); [|exact Dd]. intros y Hy. apply kl_in in Hy. rewrite T3 by (congruence || apply Hy). change (con_next h2 y d) with (con_next h1 y d). apply T1; [congruence|apply Hy].
Qed.

Lemma knew_repr ends : krepr ends (kh_new ends) [].
Proof. constructor; [|constructor|intros c []|intros b; now split]. intros c. cbn. now destruct (ends c). Qed.

Fixpoint adds (os : list kop) : nat := match os with [] => 0 | AddK _ :: os => S (adds os) | RemK _ :: os => adds os end.
Theorem krun ends : forall os h l fuel, krepr ends h l -> kproper_all ends l os -> length l + adds os <= fuel ->
  exists h', kexec_all fuel h os = Some h' /\ krepr ends h' (fold_left khappens os l).
Proof.
  induction os as [|o os IH]; intros h l fuel R P F; [exists h; now split|]. destruct P as (P & Q). destruct o as [c|c]; cbn [kexec_all kexec fold_left adds] in *.
  - apply IH; [apply add_repr; [exact R|apply P|apply P]|exact Q|cbn; lia].
  - destruct (rem_repr ends h l c fuel R P) as (h' & E & R'); [lia|]. rewrite E. apply IH; [exact R'|exact Q|].
    pose proof (filter_le (fun d => negb (d =? c)) l). cbn [khappens]. lia.
Qed.
Lemma krepr_walk ends h l b fuel : krepr ends h l -> length l <= fuel -> each_constraint fuel h b = Some (kl ends l b).
Proof.
  intros R L. destruct (k_list ends h l R b) as (E & D). unfold each_constraint. rewrite E. apply chain_walk; [|exact D].
  pose proof (filter_le (touches ends b) l). unfold kl. lia.
Qed.

(** a constraint between a body and itself: removal panics *)
Lemma filter_missing : forall l h b c fuel, ~ In c l -> chain h b l -> length l < fuel -> forall fuel', filter_cons fuel' h (hd_error l) b c = None.
Proof.
  induction l as [|x r IH]; intros h b c fuel N D L fuel'; [destruct fuel'; reflexivity|]. destruct D as (A & D). destruct fuel' as [|k]; [reflexivity|].
  cbn [hd_error filter_cons]. rewrite (proj2 (Nat.eqb_neq x c)) by (intros ->; apply N; now left). unfold con_next in A.
  destruct (kc_a (kh_con h x) =? b); rewrite A, (IH h b c fuel); auto; try (intros X; apply N; now right); cbn in L; lia.
Qed.

Theorem self_constraint ends h l c a fuel : krepr ends h l -> ends c = (a, a) -> ~ In c l -> remove_con fuel (add_con h c) c = None.
Proof.
  intros [B Nd Df Ls] E Nc. pose proof (B c) as Pc. rewrite E in Pc. injection Pc as Pa Pb. unfold add_con. rewrite Pa, Pb.
  set (h1 := set_na h c (kh_list h a)). set (h2 := set_clist h1 a (Some c)). set (h3 := set_nb h2 c (kh_list h2 a)). set (h4 := set_clist h3 a (Some c)).
  assert (Ka : kc_a (kh_con h4 c) = a /\ kc_b (kh_con h4 c) = a).
  { unfold h4, h3, h2, h1, set_clist, set_nb, set_na. cbn [kh_con kc_a kc_b]. rewrite !put_eq. cbn [kh_con kc_a kc_b]. rewrite ?put_eq. cbn [kc_a kc_b]. now split. }
  unfold remove_con, body_remove_con. rewrite (proj1 Ka). assert (L4 : kh_list h4 a = Some c) by (cbn; now rewrite put_eq). rewrite L4.
  destruct fuel as [|k]; [reflexivity|]. cbn [filter_cons]. rewrite Nat.eqb_refl.
  assert (N4 : con_next h4 c a = kh_list h a) by (unfold con_next; rewrite (proj1 Ka), Nat.eqb_refl; unfold h4, h3, h2, h1, set_clist, set_nb, set_na; cbn [kh_con kc_na]; rewrite put_eq; cbn [kh_con kc_na]; rewrite put_eq; reflexivity).
  rewrite N4. change (kc_b (kh_con (set_clist h4 a (kh_list h a)) c)) with (kc_b (kh_con h4 c)). rewrite (proj2 Ka).
  change (kh_list (set_clist h4 a (kh_list h a)) a) with (put (kh_list h4) a (kh_list h a) a). rewrite put_eq.
  destruct (Ls a) as (La & Da). rewrite La.
  change (match filter_cons (S k) (set_clist h4 a (hd_error (kl ends l a))) (hd_error (kl ends l a)) a c with Some (h0, r) => Some (set_clist h0 a r) | None => None end = None).
  rewrite (filter_missing (kl ends l a) _ a c (S (length (kl ends l a)))); [reflexivity| | |lia].
  - intros X. apply kl_in in X. now apply Nc.
  - rewrite chain_clist. unfold h4. rewrite chain_clist. apply (chain_ext h); [|exact Da]. intros y Hy.
    assert (Ny : y <> c) by (intros ->; apply kl_in in Hy; now apply Nc).
    unfold con_next, h3, h2, h1, set_nb, set_na, set_clist. cbn [kh_con]. rewrite !put_ne by exact Ny. reflexivity.
Qed.
(** removing a constraint that is in no list *)
Theorem missing_constraint ends h l c fuel : krepr ends h l -> ~ In c l -> remove_con fuel h c = None.
Proof.
  intros [B Nd Df Ls] Nc. unfold remove_con, body_remove_con. destruct (Ls (kc_a (kh_con h c))) as (L & D). rewrite L.
  rewrite (filter_missing (kl ends l _) h _ c (S (length (kl ends l (kc_a (kh_con h c)))))); [reflexivity| |exact D|lia].
  intros X. apply kl_in in X. now apply Nc.
Qed.
