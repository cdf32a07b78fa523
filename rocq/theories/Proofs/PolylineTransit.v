(** Collecting contours in which points are passed more than once, but never left dangling there. *)
From Coq Require Import Reals ZArith List Arith Bool Lia Lra Permutation.
From Verif Require Import Num Spec SpecPolyline.
From Verif.Model Require Import Vector Polyline.
From Verif.Proofs Require Import RTac PolylinePf.
Import ListNotations.
Local Open Scope nat_scope.

Section Transit.
Variable X : RV -> Prop.
(** segments in blocks: one segment off X, or two through a point of X *)
Inductive blocks : list (RV * RV) -> Prop :=
| bl_nil : blocks []
| bl_one u w segs : ~ X u -> ~ X w -> blocks segs -> blocks ((u, w) :: segs)
| bl_two u c w segs : ~ X u -> X c -> ~ X w -> blocks segs -> blocks ((u, c) :: (c, w) :: segs).
Lemma blocks_app s1 s2 : blocks s1 -> blocks s2 -> blocks (s1 ++ s2).
Proof. intros B1 B2. induction B1; cbn [app]; [exact B2|apply bl_one; auto|apply bl_two; auto]. Qed.
(** no line starts or ends in X *)
Definition clear (ls : list (list RV)) : Prop := forall l v, In l ls -> hd_error l = Some v \/ vlast l = Some v -> ~ X v.
Definition coll (ls : list (list RV)) (s : RV * RV) := collect (fst s) (snd s) ls.

Lemma collect_links v0 v1 (ls : list (list RV)) : Permutation (all_links (collect v0 v1 ls)) ((v0, v1) :: all_links ls).
Proof.
  destruct (added_links _ _ _ _ (collect_added v0 v1 ls)) as (e0 & e1 & Q & A0 & A1). assert (e0 = v0) by (destruct A0 as [?|A0]; auto; now apply vequal_R). assert (e1 = v1) by (destruct A1 as [?|A1]; auto; now apply vequal_R). now subst.
Qed.
Lemma collect_long v0 v1 (ls : list (list RV)) : Forall long ls -> Forall long (collect v0 v1 ls).
Proof. apply added_long with v0 v1, collect_added. Qed.
(** the ends of the lines after adding a segment: ends of the lines before, except that a line ending at v0 is extended if there is one *)
Lemma collect_clear u w ls : Forall long ls -> clear ls -> ~ X u -> ~ X w -> clear (collect u w ls).
Proof.
  intros HL C Nu Nw. assert (NE : forall l, In l ls -> l <> []) by (intros l Hl ->; rewrite Forall_forall in HL; specialize (HL _ Hl); unfold long in HL; cbn in HL; lia).
  assert (G : forall ls' h rest, Permutation ls' (h :: rest) -> (forall m, In m rest -> In m ls) -> (forall v, hd_error h = Some v \/ vlast h = Some v -> ~ X v) -> clear ls').
  { intros ls' h rest P R Hh l v Hl Hv. eapply Permutation_in in Hl; [|exact P]. destruct Hl as [<-|Hl]; [now apply Hh|apply (C l); auto]. }
  assert (PI : forall l rest m, Permutation ls (l :: rest) -> In m rest -> In m ls) by (intros l rest m P Hm; eapply Permutation_in; [symmetry; exact P|cbn; auto]).
  destruct (collect_added u w ls) as [l w' u' rest P Q Ew Qw Eu Qu|b a w' u' rest P Q Ew Qw Eu Qu|l w' rest P Q Ew Qw N1|l u' rest P Q Eu Qu N2|Q N1 N2].
  - assert (Il : In l ls) by (eapply Permutation_in; [symmetry; exact P|cbn; auto]). apply (G _ _ _ Q); [eauto|]. rewrite hd_app, vlast_app by (auto; discriminate). cbn [vlast]. intros v [E|[= <-]]; auto. apply (C l); auto.
  - assert (Ib : In b ls) by (eapply Permutation_in; [symmetry; exact P|cbn; auto]). assert (Ia : In a ls) by (eapply Permutation_in; [symmetry; exact P|cbn; auto]). apply (G _ _ _ Q); [intros m Hm; eapply PI; [exact P|cbn; auto]|]. rewrite hd_app, vlast_app by auto. intros v [E|E]; [apply (C b)|apply (C a)]; auto.
  - assert (Il : In l ls) by (eapply Permutation_in; [symmetry; exact P|cbn; auto]). apply (G _ _ _ Q); [eauto|]. rewrite hd_app, vlast_app by (auto; discriminate). cbn [vlast]. intros v [E|[= <-]]; auto. apply (C l); auto.
  - assert (Il : In l ls) by (eapply Permutation_in; [symmetry; exact P|cbn; auto]). apply (G _ _ _ Q); [eauto|]. change (u :: l) with ([u] ++ l). rewrite vlast_app by auto. cbn [hd_error app]. intros v [[= <-]|E]; auto. apply (C l); auto.
  - apply (G _ _ _ Q); [auto|]. cbn [hd_error vlast]. intros v [[= <-]|[= <-]]; auto.
Qed.
(** after a segment into X there is one line ending there, all others are clear *)
Lemma collect_into u c ls : Forall long ls -> clear ls -> ~ X u -> X c -> exists l rest, Permutation (collect u c ls) ((l ++ [c]) :: rest) /\ l <> [] /\ clear (l :: rest) /\ Forall long rest.
Proof.
  intros HL C Nu Xc. assert (NE : forall l, In l ls -> l <> []) by (intros l Hl ->; rewrite Forall_forall in HL; specialize (HL _ Hl); unfold long in HL; cbn in HL; lia).
  assert (NS : forall m v, In m ls -> hd_error m = Some v -> vequal v c = true -> False) by (intros m v Hm Ev Q; apply vequal_R in Q; subst v; apply (C m c); auto).
  assert (PL : forall l rest, Permutation ls (l :: rest) -> Forall long rest /\ clear (l :: rest)). { intros l rest P. split; [rewrite Forall_forall in *; intros m Hm; apply HL; eapply Permutation_in; [symmetry; exact P|cbn; auto]|]. intros m v Hm. apply (C m v). eapply Permutation_in; [symmetry; exact P|exact Hm]. }
  destruct (collect_added u c ls) as [l w' u' rest P Q Ew Qw Eu Qu|b a w' u' rest P Q Ew Qw Eu Qu|l w' rest P Q Ew Qw N1|l u' rest P Q Eu Qu N2|Q N1 N2].
  - exfalso. apply (NS l u'); auto. eapply Permutation_in; [symmetry; exact P|cbn; auto].
  - exfalso. apply (NS a u'); auto. eapply Permutation_in; [symmetry; exact P|cbn; auto].
  - exists l, rest. destruct (PL _ _ P). repeat split; auto. apply NE. eapply Permutation_in; [symmetry; exact P|cbn; auto].
  - exfalso. apply (NS l u'); auto. eapply Permutation_in; [symmetry; exact P|cbn; auto].
  - exists [u], ls. split; [exact Q|]. split; [discriminate|]. split; [|exact HL]. intros l v [<-|Hl]; [|apply C; auto]. cbn. intros [[= <-]|[= <-]]; auto.
Qed.
Lemma collect_through u c w ls : Forall long ls -> clear ls -> ~ X u -> X c -> ~ X w -> clear (collect c w (collect u c ls)).
Proof.
  intros HL C Nu Xc Nw. destruct (collect_into u c ls HL C Nu Xc) as (l & rest & P & Nl & CL & LR). set (ls1 := collect u c ls) in *.
  assert (ONE : forall m v, In m ls1 -> vlast m = Some v -> v = c -> m = l ++ [c]).
  { intros m v Hm Ev ->. eapply Permutation_in in Hm; [|exact P]. destruct Hm as [<-|Hm]; [reflexivity|]. exfalso. apply (CL m c); cbn; auto. }
  assert (IN : In (l ++ [c]) ls1) by (eapply Permutation_in; [symmetry; exact P|cbn; auto]). assert (LC : vlast (l ++ [c]) = Some c) by (apply vlast_some; eauto).
  assert (FR : forall l' rest', Permutation ls1 (l' :: rest') -> vlast l' = Some c -> l' = l ++ [c] /\ Permutation rest' rest).
  { intros l' rest' P' E. assert (l' = l ++ [c]) by (apply (ONE l' c); auto; eapply Permutation_in; [symmetry; exact P'|cbn; auto]). split; [exact H|]. subst l'. eapply Permutation_cons_inv. rewrite <- P'. exact P. }
  assert (CR : forall m v, In m rest -> hd_error m = Some v \/ vlast m = Some v -> ~ X v) by (intros m v Hm; apply CL; cbn; auto).
  assert (G : forall ls' h rest', Permutation ls' (h :: rest') -> (forall m, In m rest' -> In m rest) -> (forall v, hd_error h = Some v \/ vlast h = Some v -> ~ X v) -> clear ls').
  { intros ls' h rest' P' R Hh m v Hm Hv. eapply Permutation_in in Hm; [|exact P']. destruct Hm as [<-|Hm]; [now apply Hh|apply (CR m); auto]. }
  assert (HC : forall v, hd_error (l ++ [c]) = Some v -> ~ X v) by (intros v; rewrite hd_app by exact Nl; intros E; apply (CL l); cbn; auto).
  destruct (collect_added c w ls1) as [l' w' u' rest' P' Q Ew Qw Eu Qu|b a w' u' rest' P' Q Ew Qw Eu Qu|l' w' rest' P' Q Ew Qw N1|l' u' rest' P' Q Eu Qu N2|Q N1 N2]; try (apply vequal_R in Qw); try (apply vequal_R in Qu); try subst w'; try subst u'.
  - destruct (FR _ _ P' Ew) as [-> PR]. apply (G _ _ _ Q); [intros m Hm; eapply Permutation_in; eauto|]. rewrite hd_app, vlast_app by (try discriminate; destruct l; discriminate). cbn [vlast]. intros v [E|[= <-]]; auto.
  - assert (b = l ++ [c]) by (apply (ONE b c); auto; eapply Permutation_in; [symmetry; exact P'|cbn; auto]). subst b. destruct (FR _ _ P' Ew) as [_ PR]. assert (Ia : In a rest) by (eapply Permutation_in; [exact PR|cbn; auto]). assert (La : a <> []) by (intros ->; discriminate).
    apply (G _ _ _ Q); [intros m Hm; eapply Permutation_in; [exact PR|cbn; auto]|]. rewrite hd_app, vlast_app by (auto; destruct l; discriminate). intros v [E|E]; [auto|apply (CR a); auto].
  - destruct (FR _ _ P' Ew) as [-> PR]. apply (G _ _ _ Q); [intros m Hm; eapply Permutation_in; eauto|]. rewrite hd_app, vlast_app by (try discriminate; destruct l; discriminate). cbn [vlast]. intros v [E|[= <-]]; auto.
  - exfalso. specialize (N2 _ _ IN LC). apply vequal_Rf in N2. congruence.
  - exfalso. specialize (N2 _ _ IN LC). apply vequal_Rf in N2. congruence.
Qed.
Lemma clear_one_start c ls : clear ls -> X c -> one_start c ls.
Proof. intros C Xc m m' rest P E _. apply (C m c); auto. eapply Permutation_in; [symmetry; exact P|cbn; auto]. Qed.
Lemma count_perm l m v : Permutation l m -> count_occ RV_dec (map fst l) v = count_occ RV_dec (map (@fst RV RV) m) v.
Proof. intros P. apply (Permutation_count_occ RV_dec). now apply Permutation_map. Qed.
Lemma collect_blocks segs : blocks segs -> forall ls pre, Forall long ls -> clear ls -> maximal ls -> Permutation (all_links ls) pre -> (forall v, ~ X v -> count_occ RV_dec (map fst (pre ++ segs)) v <= 1) ->
  clear (fold_left coll segs ls) /\ maximal (fold_left coll segs ls).
Proof.
  intros B. induction B as [|u w segs Nu Nw B IH|u c w segs Nu Xc Nw B IH]; intros ls pre HL C M P N.
  - cbn [fold_left]. auto.
  - cbn [fold_left]. unfold coll at 2 4. cbn [fst snd]. assert (OS : one_start w ls). { apply nodup_one_start; auto. specialize (N w Nw). rewrite map_app, count_occ_app in N. rewrite (count_perm _ _ w P). lia. }
    apply (IH (collect u w ls) ((u, w) :: pre)).
    + now apply collect_long.
    + now apply collect_clear.
    + eapply added_maximal; eauto. apply collect_added.
    + rewrite collect_links. now constructor.
    + intros v Nv. specialize (N v Nv). erewrite count_perm; [exact N|]. cbn [app]. apply Permutation_middle.
  - cbn [fold_left]. unfold coll at 2 3 5 6. cbn [fst snd]. set (ls1 := collect u c ls). assert (P1 : Permutation (all_links ls1) ((u, c) :: pre)) by (unfold ls1; rewrite collect_links; now constructor).
    assert (L1 : Forall long ls1) by now apply collect_long. assert (M1 : maximal ls1) by (eapply added_maximal; [apply collect_added|exact HL|now apply clear_one_start|exact M]).
    assert (OS : one_start w ls1). { apply nodup_one_start; auto. specialize (N w Nw). rewrite map_app, count_occ_app in N. cbn [map fst count_occ] in N. rewrite (count_perm _ _ w P1). cbn [map fst count_occ]. destruct (RV_dec u w), (RV_dec c w); lia. }
    apply (IH (collect c w ls1) ((c, w) :: (u, c) :: pre)).
    + now apply collect_long.
    + now apply collect_through.
    + eapply added_maximal; eauto. apply collect_added.
    + rewrite collect_links. now constructor.
    + intros v Nv. specialize (N v Nv). erewrite count_perm; [exact N|]. cbn [app]. rewrite perm_swap, Permutation_middle, Permutation_middle. reflexivity.
Qed.
(** every line of the collection is closed *)
Lemma blocks_loops segs : blocks segs -> (forall v, ~ X v -> count_occ RV_dec (map fst segs) v <= 1) -> (forall v, ~ X v -> count_occ RV_dec (map snd segs) v <= 1) -> (forall s, In s segs -> In (snd s) (map fst segs)) -> Forall loops (collect_all segs).
Proof.
  intros B N1 N2 HC. destruct (collect_edges segs) as [P HL]. destruct (collect_blocks segs B [] []) as [CL M]; auto; try constructor; try (intros l v []). change (fold_left coll segs []) with (collect_all segs) in *. set (ls := collect_all segs) in *.
  assert (D : forall v, ~ X v -> count_occ RV_dec (map snd (all_links ls)) v <= 1) by (intros v Nv; erewrite (proj1 (Permutation_count_occ RV_dec _ _)); [apply (N2 v Nv)|]; now apply Permutation_map).
  rewrite Forall_forall in *. intros l Hl. pose proof (HL l Hl) as Ll. unfold long in Ll.
  destruct (exists_last (l := l)) as (p & e & ->); [intros ->; cbn in Ll; lia|]. assert (Hp : p <> []) by (intros ->; cbn in Ll; lia). destruct (exists_last Hp) as (q & z & ->).
  assert (Ne : ~ X e) by (apply (CL _ e Hl); right; apply vlast_some; eauto). specialize (D e Ne).
  assert (Ie : In (z, e) (all_links ls)). { apply in_flat_map. eexists. split; [exact Hl|]. rewrite <- app_assoc. cbn [app]. rewrite links_snoc. apply in_app_iff. cbn. auto. }
  assert (Fe : In e (map fst (all_links ls))). { specialize (HC (z, e)). eapply Permutation_in; [apply Permutation_map; symmetry; exact P|]. apply HC. eapply Permutation_in; eauto. }
  apply in_map_iff in Fe as ([e' w] & <- & Fe). cbn [fst] in *. unfold all_links in Fe. apply in_flat_map in Fe as (m & Hm & Fe).
  assert (Re : In e' (removelast m)) by (rewrite <- (proj1 (links_map m)); apply in_map_iff; exists (e', w); auto). pose proof (HL m Hm) as Lm. unfold long in Lm. destruct m as [|a t]; [cbn in Lm; lia|].
  assert (SPL : ((q ++ [z]) ++ [e']) = a :: t \/ exists rest, Permutation ls (((q ++ [z]) ++ [e']) :: (a :: t) :: rest)).
  { clear - Hl Hm. apply in_split in Hl as (x & y & E). rewrite E in *. apply in_app_iff in Hm as [Hm|[Hm|Hm]]; [right|left; auto|right]; apply in_split in Hm as (x' & y' & ->).
    - exists (x' ++ y' ++ y). rewrite <- Permutation_middle. constructor. rewrite <- !app_assoc. cbn [app]. symmetry. apply Permutation_middle.
    - exists (x ++ x' ++ y'). rewrite <- Permutation_middle. constructor. rewrite !app_assoc. symmetry. apply Permutation_middle. }
  destruct t as [|b t]; [cbn in Lm; lia|]. change (removelast (a :: b :: t)) with (a :: removelast (b :: t)) in Re. destruct Re as [->|Re].
  - destruct SPL as [E|(rest & PP)].
    + destruct q as [|x q]; cbn [app] in E |- *; injection E as -> E; [exists e', []|exists e', (q ++ [z])]; reflexivity.
    + exfalso. apply (fop_perm _ _ PP) in M. inversion M as [|? ? F1 _]; subst. inversion F1 as [|? ? AP _]; subst. destruct (AP e') as [Y _]. apply Y. split; [apply vlast_some; eauto|reflexivity].
  - exfalso. assert (RL : forall L : list RV, In e' (removelast L) -> 1 <= count_occ RV_dec (removelast L) e') by (intros L I; apply (count_occ_In RV_dec) in I; lia).
    assert (CS : forall (L : list RV) x, count_occ RV_dec (L ++ [x]) e' = count_occ RV_dec L e' + (if RV_dec x e' then 1 else 0)) by (intros L x; rewrite count_occ_app; cbn [count_occ]; destruct (RV_dec x e'); lia).
    assert (LK : forall m : list RV, In m ls -> forall rest, Permutation ls (m :: rest) -> count_occ RV_dec (map snd (all_links ls)) e' = count_occ RV_dec (tl m) e' + count_occ RV_dec (map snd (all_links rest)) e').
    { intros m _ rest Pm. rewrite (proj1 (Permutation_count_occ RV_dec _ _) (Permutation_map snd (flat_perm links _ _ Pm))). unfold all_links. cbn [flat_map]. rewrite map_app, count_occ_app, (proj2 (links_map m)). reflexivity. }
    assert (RI : count_occ RV_dec (b :: t) e' >= 1) by (specialize (RL _ Re); destruct (exists_last (l := b :: t)) as (L & x & EL); [discriminate|]; rewrite EL in *; rewrite removelast_last in RL; rewrite CS; lia).
    assert (LI : count_occ RV_dec (tl ((q ++ [z]) ++ [e'])) e' >= 1) by (destruct q as [|x q]; [cbn; destruct (RV_dec e' e'); [lia|congruence]|cbn [tl app]; rewrite CS; destruct (RV_dec e' e'); [lia|congruence]]).
    destruct SPL as [E|(rest & PP)].
    + destruct (in_split _ _ Hm) as (x & y & Es). assert (Pm : Permutation ls ((a :: b :: t) :: x ++ y)) by (rewrite Es; symmetry; apply Permutation_middle). pose proof (LK _ Hm _ Pm) as K. cbn [tl] in K.
      assert (C2 : count_occ RV_dec (b :: t) e' >= 2); [|lia]. specialize (RL _ Re). destruct (exists_last (l := b :: t)) as (L & x0 & EL); [discriminate|]. rewrite EL in *. rewrite removelast_last in *. rewrite CS. destruct q as [|x1 q]; cbn [app] in E; injection E as _ E.
      * apply (f_equal (@length RV)) in E. assert (L = []) by (destruct L; auto; rewrite app_length in E; cbn in E; lia). subst L. cbn in RL. lia.
      * apply app_inj_tail in E as [_ <-]. destruct (RV_dec e' e'); [lia|congruence].
    + pose proof (LK _ Hl _ PP) as K. unfold all_links in K. cbn [flat_map] in K. rewrite map_app, count_occ_app, (proj2 (links_map (a :: b :: t))) in K. cbn [tl] in K. unfold all_links in D. lia.
Qed.
End Transit.
