(** Collecting segments into polylines. *)
From Coq Require Import Reals List Arith Bool Lia Lra Permutation.
From Verif Require Import Num Spec SpecPolyline.
From Verif.Model Require Import Vector Hull Polyline.
From Verif.Proofs Require Import RTac.
Import ListNotations.
Local Open Scope nat_scope.

Lemma links_map {A} (l : list A) : map fst (links l) = removelast l /\ map snd (links l) = tl l.
Proof.
  unfold links. induction l as [|a l [I1 I2]]; [auto|]. destruct l as [|b l]; [auto|]. cbn [tl combine map removelast fst snd] in *. split; [f_equal; exact I1|f_equal; exact I2].
Qed.
Lemma links_app {A} (l r : list A) p : links (l ++ p :: r) = links (l ++ [p]) ++ links (p :: r).
Proof.
  unfold links. induction l as [|a l IH]; [reflexivity|]. destruct l as [|b l]; [reflexivity|]. cbn [app tl combine] in *. f_equal. exact IH.
Qed.
Lemma links_cons {A} (a b : A) l : links (a :: b :: l) = (a, b) :: links (b :: l). Proof. reflexivity. Qed.
Lemma links_snoc {A} (l : list A) a b : links (l ++ [a; b]) = links (l ++ [a]) ++ [(a, b)]. Proof. now rewrite links_app. Qed.
Lemma links_join {A} (l r : list A) a b : links ((l ++ [a]) ++ b :: r) = links (l ++ [a]) ++ (a, b) :: links (b :: r).
Proof. rewrite <- app_assoc. cbn [app]. now rewrite links_app, links_cons. Qed.

Section Gen.
Context {T : Type} `{Num T} `{Trig T}.
Notation V := (Vec T).
Implicit Types (l m : list V) (ls : list (list V)).

Lemma vlast_some l w : vlast l = Some w <-> exists p, l = p ++ [w].
Proof.
  split.
  - revert w. induction l as [|a l IH]; intros w; [discriminate|]. destruct l as [|b l]; [intros [= ->]; now exists []|]. change (vlast (a :: b :: l)) with (vlast (b :: l)). intros E. destruct (IH w E) as [p ->]. now exists (a :: p).
  - intros [p ->]. induction p as [|a p IH]; [reflexivity|]. cbn [app]. destruct (p ++ [w]) eqn:E; [destruct p; discriminate|]. exact IH.
Qed.
Lemma find_ends_some ls v i : find_ends ls v = Some i -> exists l w, nth_error ls i = Some l /\ vlast l = Some w /\ vequal w v = true.
Proof.
  revert i. induction ls as [|l ls IH]; intros i; [discriminate|]. cbn [find_ends]. destruct (vlast l) as [w|] eqn:E.
  - destruct (vequal w v) eqn:Q; [intros [= <-]; cbn; eauto|]. destruct (find_ends ls v); [|discriminate]. intros [= <-]. cbn. now apply IH.
  - destruct (find_ends ls v); [|discriminate]. intros [= <-]. cbn. now apply IH.
Qed.
Lemma find_ends_none ls v : find_ends ls v = None -> forall l w, In l ls -> vlast l = Some w -> vequal w v = false.
Proof.
  induction ls as [|l ls IH]; [intros _ l w []|]. cbn [find_ends]. intros E l' w [<-|Hl] Hw.
  - rewrite Hw in E. destruct (vequal w v); [discriminate|reflexivity].
  - eapply IH; eauto. destruct (match vlast l with Some w => vequal w v | None => false end); [discriminate|]. now destruct (find_ends ls v).
Qed.
Lemma find_starts_some ls v i : find_starts ls v = Some i -> exists l w, nth_error ls i = Some l /\ hd_error l = Some w /\ vequal w v = true.
Proof.
  revert i. induction ls as [|l ls IH]; intros i; [discriminate|]. cbn [find_starts]. destruct (hd_error l) as [w|] eqn:E.
  - destruct (vequal w v) eqn:Q; [intros [= <-]; cbn; eauto|]. destruct (find_starts ls v); [|discriminate]. intros [= <-]. cbn. now apply IH.
  - destruct (find_starts ls v); [|discriminate]. intros [= <-]. cbn. now apply IH.
Qed.
Lemma find_starts_none ls v : find_starts ls v = None -> forall l w, In l ls -> hd_error l = Some w -> vequal w v = false.
Proof.
  induction ls as [|l ls IH]; [intros _ l w []|]. cbn [find_starts]. intros E l' w [<-|Hl] Hw.
  - rewrite Hw in E. destruct (vequal w v); [discriminate|reflexivity].
  - eapply IH; eauto. destruct (match hd_error l with Some w => vequal w v | None => false end); [discriminate|]. now destruct (find_starts ls v).
Qed.
Lemma delete_perm ls i l : nth_error ls i = Some l -> Permutation ls (l :: delete ls i).
Proof. unfold delete. intros E. apply nth_error_split in E as (p & q & -> & <-). rewrite firstn_app, Nat.sub_diag, firstn_all, firstn_O, app_nil_r. rewrite skipn_app, skipn_all2 by lia. replace (S (length p) - length p) with 1 by lia. cbn [skipn app]. symmetry. apply Permutation_middle. Qed.
Lemma update_perm f ls i l : nth_error ls i = Some l -> Permutation (update ls i f) (f l :: delete ls i).
Proof.
  unfold delete. revert i. induction ls as [|a ls IH]; intros [|i]; try discriminate; cbn [nth_error update].
  - intros [= ->]. reflexivity.
  - intros E. specialize (IH i E). rewrite IH. cbn [firstn skipn app]. apply perm_swap.
Qed.
Lemma update_nth f ls i j : i <> j -> nth_error (update ls i f) j = nth_error ls j.
Proof. revert i j. induction ls as [|a ls IH]; intros [|i] [|j] NE; try reflexivity; try contradiction. cbn. apply IH. lia. Qed.
Lemma delete_other ls i j a : i <> j -> nth_error ls j = Some a -> In a (delete ls i).
Proof.
  intros NE E. unfold delete. apply in_app_iff. destruct (Nat.lt_ge_cases j i) as [L|L].
  - left. apply nth_error_In with j. rewrite <- E. rewrite <- (firstn_skipn i ls) at 2. rewrite nth_error_app1; [reflexivity|]. rewrite firstn_length. assert (j < length ls) by (apply nth_error_Some; congruence). lia.
  - right. apply nth_error_In with (j - S i). rewrite <- E. rewrite <- (firstn_skipn (S i) ls) at 2. rewrite nth_error_app2; rewrite firstn_length; assert (j < length ls) by (apply nth_error_Some; congruence); [f_equal|]; lia.
Qed.
Lemma join_perm ls i j b a : i <> j -> nth_error ls i = Some b -> nth_error ls j = Some a -> exists rest, Permutation ls (b :: a :: rest) /\ Permutation (join ls i j) ((b ++ a) :: rest).
Proof.
  intros NE Eb Ea. destruct (in_split a (delete ls i) (delete_other ls i j a NE Ea)) as (p & q & Q). exists (p ++ q).
  assert (P : Permutation (delete ls i) (a :: p ++ q)) by (rewrite Q; symmetry; apply Permutation_middle). split.
  - rewrite (delete_perm ls i b Eb). now constructor.
  - unfold join. rewrite (nth_error_nth _ _ [] Ea). set (f := fun l => l ++ a). assert (Ea' : nth_error (update ls i f) j = Some a) by now rewrite update_nth. pose proof (delete_perm _ _ _ Ea') as D. pose proof (update_perm f ls i b Eb) as U.
    set (X := delete (update ls i f) j) in *. assert (D2 : Permutation (a :: f b :: p ++ q) (a :: X)).
    { rewrite <- D, U, P. apply perm_swap. }
    apply Permutation_cons_inv in D2. symmetry. exact D2.
Qed.

(** the four ways a segment is added *)
Inductive added (v0 v1 : V) (ls ls' : list (list V)) : Prop :=
| add_close l w u rest : Permutation ls (l :: rest) -> Permutation ls' ((l ++ [v1]) :: rest) -> vlast l = Some w -> vequal w v0 = true -> hd_error l = Some u -> vequal u v1 = true -> added v0 v1 ls ls'
| add_join b a w u rest : Permutation ls (b :: a :: rest) -> Permutation ls' ((b ++ a) :: rest) -> vlast b = Some w -> vequal w v0 = true -> hd_error a = Some u -> vequal u v1 = true -> added v0 v1 ls ls'
| add_end l w rest : Permutation ls (l :: rest) -> Permutation ls' ((l ++ [v1]) :: rest) -> vlast l = Some w -> vequal w v0 = true -> (forall m u, In m ls -> hd_error m = Some u -> vequal u v1 = false) -> added v0 v1 ls ls'
| add_start l u rest : Permutation ls (l :: rest) -> Permutation ls' ((v0 :: l) :: rest) -> hd_error l = Some u -> vequal u v1 = true -> (forall m w, In m ls -> vlast m = Some w -> vequal w v0 = false) -> added v0 v1 ls ls'
| add_new : Permutation ls' ([v0; v1] :: ls) -> (forall m u, In m ls -> hd_error m = Some u -> vequal u v1 = false) -> (forall m w, In m ls -> vlast m = Some w -> vequal w v0 = false) -> added v0 v1 ls ls'.
Lemma collect_added v0 v1 ls : added v0 v1 ls (collect v0 v1 ls).
Proof.
  unfold collect. destruct (find_ends ls v0) as [i|] eqn:Ei; destruct (find_starts ls v1) as [j|] eqn:Ej.
  - destruct (find_ends_some _ _ _ Ei) as (b & w & Eb & Ew & Qw). destruct (find_starts_some _ _ _ Ej) as (a & u & Ea & Eu & Qu). destruct (Nat.eqb_spec i j) as [<-|NE].
    + assert (a = b) by congruence. subst a. eapply add_close; eauto; [apply delete_perm; exact Eb|]. now apply (update_perm (fun l => l ++ [v1])).
    + destruct (join_perm ls i j b a NE Eb Ea) as (rest & P & Q). eapply add_join; eauto.
  - destruct (find_ends_some _ _ _ Ei) as (b & w & Eb & Ew & Qw). eapply add_end; eauto; [apply delete_perm; exact Eb|now apply (update_perm (fun l => l ++ [v1]))|]. now apply find_starts_none.
  - destruct (find_starts_some _ _ _ Ej) as (a & u & Ea & Eu & Qu). eapply add_start; eauto; [apply delete_perm; exact Ea|now apply (update_perm (fun l => v0 :: l))|]. now apply find_ends_none.
  - eapply add_new; [symmetry; apply Permutation_cons_append|now apply find_starts_none|now apply find_ends_none].
Qed.

Lemma flat_perm {A B} (f : A -> list B) (l m : list A) : Permutation l m -> Permutation (flat_map f l) (flat_map f m).
Proof. intros P. induction P; cbn [flat_map]; auto; [now apply Permutation_app_head|rewrite !app_assoc; apply Permutation_app_tail, Permutation_app_comm|eauto using Permutation_trans]. Qed.
Definition alike (e v : V) : Prop := e = v \/ vequal e v = true.
Lemma added_links v0 v1 ls ls' : added v0 v1 ls ls' -> exists e0 e1, Permutation (all_links ls') ((e0, e1) :: all_links ls) /\ alike e0 v0 /\ alike e1 v1.
Proof.
  unfold all_links, alike. intros [l w u rest P Q Ew Qw Eu Qu|b a w u rest P Q Ew Qw Eu Qu|l w rest P Q Ew Qw _|l u rest P Q Eu Qu _|Q _ _].
  - apply vlast_some in Ew as [p ->]. exists w, v1. split; [|auto]. rewrite (flat_perm links _ _ P), (flat_perm links _ _ Q). cbn [flat_map]. rewrite <- app_assoc. cbn [app]. rewrite links_snoc, <- app_assoc. cbn [app]. symmetry. apply Permutation_middle.
  - apply vlast_some in Ew as [p ->]. destruct a as [|u' a]; [discriminate|]. injection Eu as ->. exists w, u. split; [|auto]. rewrite (flat_perm links _ _ P), (flat_perm links _ _ Q). cbn [flat_map]. rewrite links_join, <- app_assoc. cbn [app]. rewrite <- Permutation_middle. constructor. reflexivity.
  - apply vlast_some in Ew as [p ->]. exists w, v1. split; [|auto]. rewrite (flat_perm links _ _ P), (flat_perm links _ _ Q). cbn [flat_map]. rewrite <- app_assoc. cbn [app]. rewrite links_snoc, <- app_assoc. cbn [app]. symmetry. apply Permutation_middle.
  - destruct l as [|u' l]; [discriminate|]. injection Eu as ->. exists v0, u. split; [|auto]. rewrite (flat_perm links _ _ P), (flat_perm links _ _ Q). reflexivity.
  - exists v0, v1. split; [|auto]. rewrite (flat_perm links _ _ Q). reflexivity.
Qed.
Definition long (l : list V) : Prop := 2 <= length l.
Lemma added_long v0 v1 ls ls' : added v0 v1 ls ls' -> Forall long ls -> Forall long ls'.
Proof.
  assert (PF : forall (P : list V -> Prop) a b, Permutation a b -> Forall P b -> Forall P a) by (intros P a b Q F; rewrite Forall_forall in *; intros x Hx; apply F; eapply Permutation_in; eauto).
  assert (LL : forall l m : list V, long l -> long (l ++ m)) by (unfold long; intros; rewrite app_length; lia).
  intros [l w u rest P Q _ _ _ _|b a w u rest P Q _ _ _ _|l w rest P Q _ _ _|l u rest P Q _ _ _|Q _ _] HL; eapply PF; eauto; try (apply (PF _ _ _ (Permutation_sym P)) in HL; inversion HL as [|x y X Y]; subst).
  - constructor; auto.
  - inversion Y; subst. constructor; auto.
  - constructor; auto.
  - constructor; auto. unfold long in *. cbn. lia.
  - constructor; auto. unfold long. cbn. lia.
Qed.
Lemma collect_hist segs : forall ls, Forall long ls -> exists segs', Forall2 (fun s s' => alike (fst s') (fst s) /\ alike (snd s') (snd s)) segs segs' /\
  Permutation (all_links (fold_left (fun ls s => collect (fst s) (snd s) ls) segs ls)) (segs' ++ all_links ls) /\ Forall long (fold_left (fun ls s => collect (fst s) (snd s) ls) segs ls).
Proof.
  induction segs as [|[v0 v1] segs IH]; intros ls HL; [exists []; auto|]. cbn [fold_left fst snd]. pose proof (collect_added v0 v1 ls) as A. destruct (added_links _ _ _ _ A) as (e0 & e1 & P & A0 & A1). destruct (IH _ (added_long _ _ _ _ A HL)) as (segs' & F2 & Q & HL').
  exists ((e0, e1) :: segs'). split; [constructor; auto|]. split; [|exact HL']. rewrite Q, P. cbn [app]. symmetry. apply Permutation_middle.
Qed.
End Gen.

(** ** ideal arithmetic: equality is exact *)
Lemma vequal_R (u v : RV) : vequal u v = true <-> u = v.
Proof. unfold vequal. cbn [neqb numR]. rewrite andb_true_iff, !Reqb_true. split; [intros [A B]; now apply vec_eq|intros ->; auto]. Qed.
Lemma vequal_Rf (u v : RV) : vequal u v = false <-> u <> v.
Proof. rewrite <- vequal_R. destruct (vequal u v); split; intros; try congruence. Qed.
Lemma collect_edges (segs : list (RV * RV)) : Permutation (all_links (collect_all segs)) segs /\ Forall long (collect_all segs).
Proof.
  destruct (collect_hist segs [] (Forall_nil _)) as (segs' & F2 & P & HL). split; [|exact HL]. cbn in P. rewrite app_nil_r in P. replace segs with segs' at 2; [exact P|].
  clear P HL. induction F2 as [|[a b] [c d] s s' [A B] _ ->]; [reflexivity|]. f_equal. cbn [fst snd] in *. destruct A as [->|A]; destruct B as [->|B]; try apply vequal_R in A; try apply vequal_R in B; congruence.
Qed.
Definition RV_dec (u v : RV) : {u = v} + {u <> v}.
Proof. destruct (vequal u v) eqn:E; [left; now apply vequal_R|right; now apply vequal_Rf]. Defined.
(** no line ends where another starts *)
Definition apart (l m : list RV) : Prop := forall v, ~ (vlast l = Some v /\ hd_error m = Some v) /\ ~ (vlast m = Some v /\ hd_error l = Some v).
Definition maximal (ls : list (list RV)) : Prop := ForallOrdPairs apart ls.
Lemma apart_sym l m : apart l m -> apart m l. Proof. intros A v. destruct (A v). tauto. Qed.
Lemma fop_perm ls ls' : Permutation ls ls' -> maximal ls -> maximal ls'.
Proof.
  unfold maximal. intros P. induction P as [|x l l' P IH|x y l|l m k P1 I1 P2 I2]; intros M; auto.
  - inversion M; subst. constructor; auto. rewrite Forall_forall in *. intros z Hz. apply H1. eapply Permutation_in; [symmetry; exact P|exact Hz].
  - inversion M as [|? ? F1 M1]; subst. inversion M1 as [|? ? F2 M2]; subst. inversion F1; subst. constructor; [constructor; [now apply apart_sym|auto]|]. constructor; auto.
Qed.
Lemma hd_app (l m : list RV) : l <> [] -> hd_error (l ++ m) = hd_error l. Proof. destruct l; [contradiction|reflexivity]. Qed.
Lemma vlast_app (l m : list RV) : m <> [] -> vlast (l ++ m) = vlast m.
Proof. intros Hn. destruct (exists_last Hn) as (p & w & ->). assert (E : vlast (p ++ [w]) = Some w) by (apply vlast_some; eauto). rewrite E. apply vlast_some. exists (l ++ p). now rewrite app_assoc. Qed.
(** at most one line starts at v *)
Definition one_start (v : RV) (ls : list (list RV)) : Prop := forall m m' rest, Permutation ls (m :: m' :: rest) -> hd_error m = Some v -> hd_error m' = Some v -> False.
Lemma nodup_one_start v ls : Forall long ls -> (count_occ RV_dec (map fst (all_links ls)) v <= 1) -> one_start v ls.
Proof.
  intros HL D l m rest P Eu E2. assert (CC : count_occ RV_dec (map fst (all_links ls)) v = count_occ RV_dec (map fst (all_links (l :: m :: rest))) v) by (apply (Permutation_count_occ RV_dec); apply Permutation_map, flat_perm; exact P).
  assert (Ll : long l) by (rewrite Forall_forall in HL; apply HL; eapply Permutation_in; [symmetry; exact P|cbn; auto]). assert (Lm : long m) by (rewrite Forall_forall in HL; apply HL; eapply Permutation_in; [symmetry; exact P|cbn; auto]).
  destruct l as [|x [|y l]]; unfold long in Ll; cbn in Ll; try lia. destruct m as [|x' [|y' m]]; unfold long in Lm; cbn in Lm; try lia. cbn in Eu, E2. injection Eu as ->. injection E2 as ->.
  unfold all_links in CC, D. cbn [flat_map] in CC. rewrite !map_app, !count_occ_app in CC. cbn [links combine tl map fst count_occ] in CC. unfold links in CC. cbn [combine tl map fst count_occ] in CC. destruct (RV_dec v v); [|congruence]. unfold links in D. lia.
Qed.
Lemma added_maximal v0 v1 ls ls' : added v0 v1 ls ls' -> Forall long ls -> one_start v1 ls -> maximal ls -> maximal ls'.
Proof.
  intros A HL ND M. assert (NE : forall l, In l ls -> l <> []) by (intros l Hl ->; rewrite Forall_forall in HL; specialize (HL _ Hl); unfold long in HL; cbn in HL; lia).
  destruct A as [l w u rest P Q Ew Qw Eu Qu|b a w u rest P Q Ew Qw Eu Qu|l w rest P Q Ew Qw N1|l u rest P Q Eu Qu N2|Q N1 N2]; apply (fop_perm _ _ (Permutation_sym Q)); try (apply (fop_perm _ _ P) in M); unfold maximal in *; try apply vequal_R in Qw; try apply vequal_R in Qu; subst.
  - inversion M as [|? ? F1 M1]; subst. constructor; auto. rewrite Forall_forall in *. intros m Hm v. destruct (F1 m Hm v1) as [_ F1b]. assert (Hl : l <> []) by (apply NE; eapply Permutation_in; [symmetry; exact P|cbn; auto]). rewrite vlast_app by discriminate. rewrite hd_app by exact Hl. cbn [vlast]. split.
    + intros [[= <-] E2]. apply in_split in Hm as (x & y & ->). apply (ND l m (x ++ y)); auto. rewrite P. constructor. symmetry. apply Permutation_middle.
    + intros [E1 E2]. destruct (F1 m Hm v) as [_ N]. auto.
  - inversion M as [|? ? F1 M1]; subst. inversion M1 as [|? ? F2 M2]; subst. constructor; auto. rewrite Forall_forall in *. intros m Hm v. assert (Hb : b <> []) by (apply NE; eapply Permutation_in; [symmetry; exact P|cbn; auto]). assert (Ha : a <> []) by (apply NE; eapply Permutation_in; [symmetry; exact P|cbn; auto]).
    rewrite vlast_app by exact Ha. rewrite hd_app by exact Hb. destruct (F1 m (or_intror Hm) v) as [_ X]. destruct (F2 m Hm v) as [Y _]. auto.
  - inversion M as [|? ? F1 M1]; subst. constructor; auto. rewrite Forall_forall in *. intros m Hm v. assert (Hl : l <> []) by (apply NE; eapply Permutation_in; [symmetry; exact P|cbn; auto]). rewrite vlast_app by discriminate. rewrite hd_app by exact Hl. cbn [vlast]. split.
    + intros [[= <-] E2]. assert (Im : In m ls) by (eapply Permutation_in; [symmetry; exact P|cbn; auto]). specialize (N1 m v1 Im E2). apply vequal_Rf in N1. congruence.
    + intros [E1 E2]. destruct (F1 m Hm v) as [_ X]. auto.
  - inversion M as [|? ? F1 M1]; subst. constructor; auto. rewrite Forall_forall in *. intros m Hm v. assert (Hl : l <> []) by (apply NE; eapply Permutation_in; [symmetry; exact P|cbn; auto]). change (v0 :: l) with ([v0] ++ l). rewrite vlast_app by exact Hl. cbn [hd_error app]. split.
    + intros [E1 E2]. destruct (F1 m Hm v) as [X _]. auto.
    + intros [E1 [= <-]]. assert (Im : In m ls) by (eapply Permutation_in; [symmetry; exact P|cbn; auto]). specialize (N2 m v0 Im E1). apply vequal_Rf in N2. congruence.
  - constructor; auto. rewrite Forall_forall. intros m Hm v. cbn [vlast hd_error]. split; intros [E1 E2].
    + injection E1 as <-. specialize (N1 m v1 Hm E2). apply vequal_Rf in N1. congruence.
    + injection E2 as <-. specialize (N2 m v0 Hm E1). apply vequal_Rf in N2. congruence.
Qed.
Lemma collect_maximal (segs : list (RV * RV)) : NoDup (map fst segs) -> maximal (collect_all segs).
Proof.
  intros ND. unfold collect_all.
  assert (G : forall (segs : list (RV * RV)) ls pre, Forall long ls -> Permutation (all_links ls) pre -> NoDup (map fst (pre ++ segs)) -> maximal ls -> maximal (fold_left (fun ls s => collect (fst s) (snd s) ls) segs ls)).
  { clear. induction segs as [|[v0 v1] segs IH]; intros ls pre HL P ND M; [exact M|]. cbn [fold_left fst snd]. pose proof (collect_added v0 v1 ls) as A. destruct (added_links _ _ _ _ A) as (e0 & e1 & Q & A0 & A1).
    assert (e0 = v0) by (destruct A0 as [?|A0]; auto; now apply vequal_R). assert (e1 = v1) by (destruct A1 as [?|A1]; auto; now apply vequal_R). subst e0 e1.
    apply (IH _ ((v0, v1) :: pre)).
    - now apply (added_long _ _ _ _ A).
    - rewrite Q. now constructor.
    - eapply Permutation_NoDup; [|exact ND]. apply Permutation_map. symmetry. apply Permutation_middle.
    - apply (added_maximal _ _ _ _ A); auto. apply nodup_one_start; auto. apply (NoDup_count_occ RV_dec). rewrite map_app in ND. eapply Permutation_NoDup; [apply Permutation_map; symmetry; exact P|]. clear - ND. induction pre; cbn in *; [constructor|]. inversion ND; subst. constructor; auto. rewrite in_app_iff in H1. tauto. }
  apply (G segs [] []); auto; constructor.
Qed.
Lemma collect_loops (segs : list (RV * RV)) : NoDup (map fst segs) -> NoDup (map snd segs) -> (forall s, In s segs -> In (snd s) (map fst segs)) -> Forall loops (collect_all segs).
Proof.
  intros N1 N2 HC. destruct (collect_edges segs) as [P HL]. pose proof (collect_maximal segs N1) as M. set (ls := collect_all segs) in *. rewrite Forall_forall in *. intros l Hl. pose proof (HL l Hl) as Ll. unfold long in Ll.
  destruct (exists_last (l := l)) as (p & e & ->); [intros ->; cbn in Ll; lia|]. assert (Hp : p <> []) by (intros ->; cbn in Ll; lia). destruct (exists_last Hp) as (q & z & ->).
  assert (Ie : In (z, e) (all_links ls)). { apply in_flat_map. eexists. split; [exact Hl|]. rewrite <- app_assoc. cbn [app]. rewrite links_snoc. apply in_app_iff. cbn. auto. }
  assert (Fe : In e (map fst (all_links ls))). { specialize (HC (z, e)). eapply Permutation_in; [apply Permutation_map; symmetry; exact P|]. apply HC. eapply Permutation_in; eauto. }
  apply in_map_iff in Fe as ([e' w] & <- & Fe). cbn [fst] in *. unfold all_links in Fe. apply in_flat_map in Fe as (m & Hm & Fe).
  assert (D : NoDup (map snd (all_links ls))) by (eapply Permutation_NoDup; [apply Permutation_map; symmetry; exact P|exact N2]).
  assert (Re : In e' (removelast m)) by (rewrite <- (proj1 (links_map m)); apply in_map_iff; exists (e', w); auto). pose proof (HL m Hm) as Lm. unfold long in Lm. destruct m as [|a t]; [cbn in Lm; lia|].
  assert (SPL : ((q ++ [z]) ++ [e']) = a :: t \/ exists rest, Permutation ls (((q ++ [z]) ++ [e']) :: (a :: t) :: rest)).
  { clear - Hl Hm. apply in_split in Hl as (x & y & E). rewrite E in *. apply in_app_iff in Hm as [Hm|[Hm|Hm]]; [right|left; auto|right]; apply in_split in Hm as (x' & y' & ->).
    - exists (x' ++ y' ++ y). rewrite <- Permutation_middle. constructor. rewrite <- !app_assoc. cbn [app]. symmetry. apply Permutation_middle.
    - exists (x ++ x' ++ y'). rewrite <- Permutation_middle. constructor. rewrite !app_assoc. symmetry. apply Permutation_middle. }
  destruct t as [|b t]; [cbn in Lm; lia|]. change (removelast (a :: b :: t)) with (a :: removelast (b :: t)) in Re. destruct Re as [->|Re].
  - destruct SPL as [E|(rest & PP)].
    + destruct q as [|x q]; cbn [app] in E |- *; injection E as -> E; [exists e', []|exists e', (q ++ [z])]; reflexivity.
    + exfalso. apply (fop_perm _ _ PP) in M. inversion M as [|? ? F1 _]; subst. inversion F1 as [|? ? AP _]; subst. destruct (AP e') as [X _]. apply X. split; [apply vlast_some; eauto|reflexivity].
  - exfalso. destruct SPL as [E|(rest & PP)].
    + assert (Dm : NoDup (b :: t)).
      { clear - D Hm. unfold all_links in D. apply in_split in Hm as (x & y & ->). rewrite flat_map_app in D. cbn [flat_map] in D. rewrite !map_app in D. apply NoDup_app_remove_l in D || (revert D; generalize (map snd (flat_map links x)); intros L D; induction L; [|inversion D; subst; auto]).
        all: rewrite (proj2 (links_map (a :: b :: t))) in D; cbn [tl] in D; clear - D; revert D; generalize (b :: t) as L; generalize (map snd (flat_map links y)) as R; intros R L D; induction L; [constructor|]; inversion D; subst; constructor; auto; rewrite in_app_iff in *; tauto. }
      destruct q as [|x q]; cbn [app] in E.
      * injection E as _ <- <-. cbn in Re. tauto.
      * injection E as -> E. rewrite <- E in *. rewrite removelast_app in Re by discriminate. cbn [removelast] in Re. rewrite app_nil_r in Re. clear - Dm Re. revert Dm Re. generalize (q ++ [z]) as L. intros L D I. induction L as [|y L IH]; [destruct I|]. cbn in D. inversion D; subst. destruct I as [->|I]; auto. apply H1. apply in_app_iff. cbn. auto.
    + assert (D' : NoDup (map snd (all_links (((q ++ [z]) ++ [e']) :: (a :: b :: t) :: rest)))) by (eapply Permutation_NoDup; [apply Permutation_map, flat_perm; exact PP|exact D]).
      unfold all_links in D'. cbn [flat_map] in D'. rewrite !map_app, (proj2 (links_map ((q ++ [z]) ++ [e']))), (proj2 (links_map (a :: b :: t))) in D'. cbn [tl] in D'.
      assert (I1 : In e' (tl ((q ++ [z]) ++ [e']))) by (destruct q; cbn; [auto|apply in_app_iff; cbn; auto]). assert (I2 : In e' (b :: t)) by (clear - Re; revert Re; generalize (b :: t) as L; intros L; induction L as [|y L IH]; [intros []|]; cbn; destruct L; [intros []|intros [->|I]; auto]).
      clear - D' I1 I2. revert D' I1 I2. generalize (tl ((q ++ [z]) ++ [e'])) as L. intros L D I1 I2. induction L as [|y L IH]; [destruct I1|]. cbn in D. inversion D; subst. destruct I1 as [->|I1]; auto. apply H1. apply in_app_iff. right. destruct I2 as [->|I2]; [left; reflexivity|right; apply in_app_iff; auto].
Qed.
