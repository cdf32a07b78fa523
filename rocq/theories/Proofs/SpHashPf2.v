(** The spatial hash: insertion, removal, queries. *)
From Coq Require Import ZArith Bool List Arith Lia Permutation.
From Verif Require Import Num SpecSpaceHash.
From Verif.Model Require Import Vector BB SpaceHash.
From Verif.Proofs Require Import SpHashPf.
Import ListNotations.
Local Open Scope nat_scope.
Section P.
Context {T : Type} {NT : Num T}.
Notation hash := (hash T).
Notation obj s h := (h_obj (heap s h)).
Notation ret s h := (h_retains (heap s h)).
Notation stp s h := (h_stamp (heap s h)).
Definition live (s : hash) (o h : nat) : Prop := In h (handles s) /\ obj s h = Some o.
Definition memb (s : hash) (o : nat) : Prop := exists h, live s o h.
Definition cov (s : hash) (o i : nat) : Prop := exists h, live s o h /\ In h (table s i).
(** [s'] holds the same objects in the same cells *)
Record keeps (s s' : hash) : Prop := { k_n : numcells s' = numcells s; k_d : celldim s' = celldim s; k_m : forall o, memb s' o <-> memb s o; k_c : forall o i, cov s' o i <-> cov s o i }.
Lemma keeps_refl s : keeps s s. Proof. constructor; tauto. Qed.
Lemma keeps_trans s1 s2 s3 : keeps s1 s2 -> keeps s2 s3 -> keeps s1 s3.
Proof. intros [a1 a2 a3 a4] [b1 b2 b3 b4]. constructor; intros; [congruence|congruence|rewrite b3; auto|rewrite b4; auto]. Qed.
Lemma holds_iff (s : hash) o h : holds s o h = true <-> obj s h = Some o.
Proof. unfold holds. destruct (obj s h) as [x|]; [|split; discriminate]. rewrite Nat.eqb_eq. split; congruence. Qed.
Lemma find_some (s : hash) o h : find_handle s o = Some h -> live s o h.
Proof. intros E. apply find_some in E as [A B]. split; [exact A|now apply holds_iff]. Qed.
Lemma find_none (s : hash) o : find_handle s o = None -> ~ memb s o.
Proof. intros E (h & A & B). pose proof (find_none _ _ E h A) as Q. apply holds_iff in B. congruence. Qed.
Lemma find_live (s : hash) o h : Inv s -> live s o h -> find_handle s o = Some h.
Proof. intros I L. destruct (find_handle s o) as [h'|] eqn:E; [|exfalso; apply (find_none s o E); exists h; exact L]. apply find_some in E. destruct E, L. f_equal. eapply (i_inj s I); eauto. Qed.
Lemma free_handle (s : hash) g : Inv s -> pool_may_return s g -> ~ in_use s g.
Proof. intros I [P|P]; [now apply (i_pool s I)|exact P]. Qed.

Lemma insert_ok (s : hash) o g x : Inv s -> Old s -> 0 < numcells s -> ~ memb s o -> pool_may_return s g -> let s' := sh_insert s o g x in
  Inv s' /\ Old s' /\ numcells s' = numcells s /\ celldim s' = celldim s /\ (forall o', memb s' o' <-> memb s o' \/ o' = o) /\
  (forall o' i, cov s' o' i <-> (cov s o' i \/ o' = o /\ In i (slots s x))).
Proof.
  intros I O P0 NM PR. cbv zeta. pose proof (free_handle s g I PR) as FG. unfold sh_insert. destruct (find_handle s o) as [h|] eqn:E; [exfalso; apply NM; exists h; now apply find_some|].
  set (s1 := with_handles _ _). assert (NG : ~ In g (handles s)) by (intros Q; apply FG; now left). assert (NT' : forall i, ~ In g (table s i)) by (intros i Q; apply FG; right; eauto).
  assert (RG : refs s g = 0). { destruct (refs s g) eqn:Q; [reflexivity|]. assert (0 < refs s g) by lia. destruct (refs_in s g H) as (i & J). exfalso. exact (NT' i J). }
  assert (B : forall y, y <> g -> heap s1 y = heap s y). { intros y N. unfold s1. cbn. unfold upd. destruct (Nat.eqb_spec y g) as [->|]; [congruence|]. destruct (Nat.eqb_spec y g) as [->|]; [congruence|reflexivity]. }
  assert (G : heap s1 g = mkHandle (Some o) 1 0). { unfold s1. cbn. unfold upd. rewrite Nat.eqb_refl. cbn. reflexivity. }
  assert (U1 : forall y, in_use s1 y <-> in_use s y \/ y = g). { intros y. unfold in_use, s1. cbn. split; [intros [[<-|A]|A]; auto|intros [[A|A]| ->]; auto]. }
  assert (I1 : Inv s1).
  { pose proof I as I'. destruct I as [i_nd0 i_live0 i_inj0 i_tab0 i_tnd0 i_ret0 i_pnd0 i_pool0 i_pos0]. constructor.
    - unfold s1. cbn. constructor; auto.
    - unfold s1 at 1. cbn [handles with_handles In]. intros h [<-|A]; [exists o; now rewrite G|]. rewrite B; auto. intros ->; contradiction.
    - unfold s1 at 1 2. cbn [handles with_handles In]. intros h h' y [<-|A] [<-|A'] E1 E2; auto.
      + rewrite G in E1. cbn in E1. injection E1 as <-. exfalso. apply NM. exists h'. split; [exact A'|]. rewrite B in E2; auto. intros ->; contradiction.
      + rewrite G in E2. cbn in E2. injection E2 as <-. exfalso. apply NM. exists h. split; [exact A|]. rewrite B in E1; auto. intros ->; contradiction.
      + rewrite B in E1, E2 by (intros ->; contradiction). eauto.
    - intros i h A. change (table s1 i) with (table s i) in A. destruct (i_tab0 i h A) as [L Q]. split; [exact L|]. assert (h <> g) by (intros ->; exact (NT' i A)). rewrite B by assumption. unfold s1 at 1. cbn [handles with_handles In]. destruct Q; auto.
    - intros i. apply i_tnd0.
    - intros h U. change (refs s1 h) with (refs s h). change (handles s1) with (g :: handles s). cbn [existsb]. destruct (Nat.eqb_spec h g) as [->|N].
      + rewrite G, RG. cbn. reflexivity.
      + apply U1 in U as [U|U]; [|contradiction]. rewrite B by assumption. cbn [orb]. apply i_ret0; auto.
    - unfold s1. cbn. clear -i_pnd0. induction i_pnd0 as [|y l N _ IH]; cbn; [constructor|]. destruct (Nat.eq_dec g y); auto. constructor; auto. intros Q. apply in_remove in Q as [Q _]. contradiction.
    - intros h Q. change (pool s1) with (remove Nat.eq_dec g (pool s)) in Q. apply in_remove in Q as [Q N]. rewrite U1. intros [A|A]; [exact (i_pool0 h Q A)|contradiction].
    - exact i_pos0. }
  assert (O1 : Old s1). { intros h U. change (hstamp s1) with (hstamp s). destruct (Nat.eq_dec h g) as [->|N]; [rewrite G; cbn; apply (i_pos s I)|]. apply U1 in U as [U|U]; [|contradiction]. rewrite B by assumption. auto. }
  destruct (hash_fold (slots s1 x) s1 g I1) as (J & A1 & A2 & A3 & A4 & A5 & A6 & A7); [now left|intros i Q; eapply slots_lt; eauto|]. fold (hash_handle s1 g x) in *. set (s2 := hash_handle s1 g x) in *.
  assert (LV : forall o' h, live s2 o' h <-> live s o' h \/ o' = o /\ h = g).
  { intros o' h. unfold live. rewrite A3. destruct (A6 h) as [-> _]. change (handles s1) with (g :: handles s). cbn [In]. destruct (Nat.eq_dec h g) as [->|N].
    - rewrite G. cbn. split; [intros [_ [= <-]]; auto|intros [[Q _]|[-> _]]; [contradiction|auto]].
    - rewrite B by assumption. split; [intros [[<-|Q] R]; [congruence|auto]|intros [[Q R]|[_ Q]]; [auto|contradiction]]. }
  split; [exact J|]. split; [|split; [exact A1|split; [exact A2|split]]].
  - intros h U. rewrite A5. destruct (A6 h) as [_ ->]. apply O1. destruct U as [U|(i & U)]; [left; now rewrite <- A3|]. apply A7 in U as [U|[_ ->]]; [right; eauto|left; now left].
  - intros o'. unfold memb. split; [intros (h & L); apply LV in L as [L|[-> _]]; eauto|intros [(h & L)| ->]; [exists h|exists g]; apply LV; auto].
  - intros o' i. unfold cov. change (slots s x) with (slots s1 x). split.
    + intros (h & L & K). apply LV in L. apply A7 in K. change (table s1 i) with (table s i) in K. destruct L as [L|[-> Eg]]; destruct K as [K|[K Eh]]; try subst h.
      * left. eauto.
      * exfalso. destruct L. contradiction.
      * exfalso. exact (NT' i K).
      * auto.
    + intros [(h & L & K)|[-> K]]; [exists h|exists g]; (split; [apply LV; auto|apply A7; auto]).
Qed.
Lemma remove_ok (s : hash) o : Inv s -> Old s -> memb s o -> let s' := sh_remove s o in
  Inv s' /\ Old s' /\ numcells s' = numcells s /\ celldim s' = celldim s /\ (forall o', memb s' o' <-> memb s o' /\ o' <> o) /\ (forall o' i, cov s' o' i <-> cov s o' i /\ o' <> o).
Proof.
  intros I O M. cbv zeta. unfold sh_remove. destruct (find_handle s o) as [h|] eqn:E; [|exfalso; now apply (find_none s o E)]. destruct (find_some s o h E) as [Hh Ho].
  set (s1 := set_obj _ _ _). set (s2 := release s1 h).
  assert (X : numcells s2 = numcells s /\ celldim s2 = celldim s /\ table s2 = table s /\ handles s2 = remove Nat.eq_dec h (handles s) /\ hstamp s2 = hstamp s /\ (forall y, y <> h -> heap s2 y = heap s y) /\ obj s2 h = None /\ ret s2 h = (ret s h - 1)%Z /\ stp s2 h = stp s h /\ pool s2 = if (ret s h - 1 =? 0)%Z then h :: pool s else pool s).
  { assert (E0 : heap s1 h = mkHandle None (ret s h) (stp s h)) by (unfold s1; cbn; unfold upd; rewrite Nat.eqb_refl; reflexivity). unfold s2, release. rewrite E0. cbn [h_retains]. destruct (ret s h - 1 =? 0)%Z; unfold s1; cbn; unfold upd; rewrite ?Nat.eqb_refl; cbn; repeat (split; [reflexivity|]); (split; [intros y N; destruct (Nat.eqb_spec y h); [contradiction|]; destruct (Nat.eqb_spec y h); [contradiction|reflexivity]|]); repeat (split; [reflexivity|]); reflexivity. }
  destruct X as (X1 & X2 & X3 & X4 & X5 & X6 & X7 & X8 & X9 & X10). assert (RM : forall y, In y (handles s2) <-> In y (handles s) /\ y <> h) by (intros y; rewrite X4; split; [apply in_remove|intros []; now apply in_in_remove]).
  assert (US : forall y, in_use s2 y -> in_use s y) by (intros y [A|(i & A)]; [left; now apply RM|right; exists i; now rewrite <- X3]).
  assert (RF : forall y, refs s2 y = refs s y) by (intros y; unfold refs; now rewrite X1, X3).
  assert (J : Inv s2).
  { pose proof I as I'. destruct I as [i_nd0 i_live0 i_inj0 i_tab0 i_tnd0 i_ret0 i_pnd0 i_pool0 i_pos0]. constructor.
    - rewrite X4. clear -i_nd0. induction i_nd0 as [|y l N _ IH]; cbn; [constructor|]. destruct (Nat.eq_dec h y); auto. constructor; auto. intros Q. apply in_remove in Q as [Q _]. contradiction.
    - intros y Q. apply RM in Q as [Q N]. rewrite X6; auto.
    - intros y z p Q R. apply RM in Q as [Q N], R as [R N']. rewrite !X6 by assumption. eauto.
    - intros i y Q. rewrite X3 in Q. destruct (i_tab0 i y Q) as [L K]. rewrite X1. split; [exact L|]. destruct (Nat.eq_dec y h) as [->|N]; [auto|]. rewrite X6 by assumption. destruct K as [K|K]; auto. left. apply RM. auto.
    - intros i. rewrite X3. auto.
    - intros y U. rewrite RF. destruct (Nat.eq_dec y h) as [->|N].
      + rewrite X8, (i_ret0 h) by auto. rewrite (proj2 (mem_in h (handles s)) Hh), (proj2 (mem_out h (handles s2))) by (intros Q; apply RM in Q as [_ Q]; congruence). cbn [b2n]. lia.
      + rewrite X6 by assumption. rewrite (i_ret0 y) by auto. do 3 f_equal. destruct (mem y (handles s)) eqn:Q; [apply mem_in in Q; symmetry; apply mem_in; apply RM; auto|apply mem_out in Q; symmetry; apply mem_out; intros R; apply RM in R as [R _]; contradiction].
    - rewrite X10. destruct (_ =? 0)%Z; auto. constructor; auto. intros Q. apply (i_pool0 h Q). now left.
    - intros y Q U. assert (U' := US y U). rewrite X10 in Q. assert (Q' : In y (pool s) \/ y = h /\ (ret s h = 1)%Z) by (destruct (Z.eqb_spec (ret s h - 1) 0); cbn in Q; [destruct Q as [<-|Q]; [right; split; [reflexivity|lia]|auto]|auto]).
      destruct Q' as [Q'|[-> Q']]; [exact (i_pool0 y Q' U')|]. rewrite (i_ret0 h) in Q' by auto. rewrite (proj2 (mem_in h (handles s)) Hh) in Q'. cbn [b2n] in Q'. destruct U as [U|(i & U)]; [apply RM in U as [_ U]; congruence|]. rewrite X3 in U. pose proof (refs_pos s h i I' U). lia.
    - now rewrite X5. }
  assert (LV : forall o' y, live s2 o' y <-> live s o' y /\ o' <> o).
  { intros o' y. unfold live. rewrite RM. destruct (Nat.eq_dec y h) as [->|N].
    - split; [intros [[_ Q] _]; congruence|]. intros [[_ Q] R]. congruence.
    - rewrite X6 by assumption. split; [intros [[A _] B]; split; [auto|]; intros ->; apply N; eapply (i_inj s I); eauto|intros [[A B] C]; auto]. }
  split; [exact J|]. split; [|split; [exact X1|split; [exact X2|split]]].
  - intros y U. rewrite X5. destruct (Nat.eq_dec y h) as [->|N]; [rewrite X9|rewrite X6 by assumption]; auto.
  - intros o'. unfold memb. split; [intros (y & L); apply LV in L as [L N]; eauto|intros [(y & L) N]; exists y; apply LV; auto].
  - intros o' i. unfold cov. rewrite X3. split; [intros (y & L & K); apply LV in L as [L N]; eauto|intros [(y & L & K) N]; exists y; split; [apply LV; auto|exact K]].
Qed.

(** ** queries *)
Lemma orphans_closed : forall l (s : hash), remove_orphaned s l = (fold_left release (filter (fun h => match obj s h with None => true | _ => false end) l) s, filter (fun h => match obj s h with None => false | _ => true end) l).
Proof.
  induction l as [|h l IH]; intros s; [reflexivity|]. cbn [remove_orphaned filter]. destruct (obj s h) eqn:E.
  - rewrite IH. reflexivity.
  - rewrite IH. cbn [fold_left]. assert (O : forall y, obj (release s h) y = obj s y) by (intros y; unfold release; destruct (_ =? 0)%Z; cbn; unfold upd; destruct (Nat.eqb_spec y h) as [->|]; reflexivity).
    rewrite (filter_ext (fun h0 => match obj (release s h) h0 with None => true | _ => false end) (fun h0 => match obj s h0 with None => true | _ => false end)) by (intros y; now rewrite O).
    rewrite (filter_ext (fun h0 => match obj (release s h) h0 with None => false | _ => true end) (fun h0 => match obj s h0 with None => false | _ => true end)) by (intros y; now rewrite O). reflexivity.
Qed.
Definition purge (s : hash) (i : nat) : hash := let '(s, l) := remove_orphaned s (table s i) in set_cell s i l.
Lemma purge_ok (s : hash) i : Inv s -> i < numcells s -> let s' := purge s i in Inv s' /\ keeps s s' /\ handles s' = handles s /\ hstamp s' = hstamp s /\ (forall h, obj s' h = obj s h /\ stp s' h = stp s h) /\
  (forall h, In h (table s' i) <-> In h (table s i) /\ In h (handles s)) /\ (forall j h, In h (table s' j) -> In h (table s j)).
Proof.
  intros I Li. cbv zeta. unfold purge. rewrite orphans_closed. set (L := filter _ _). set (K := filter _ _).
  assert (NL : NoDup L) by (apply NoDup_filter, (i_tnd s I)). assert (NK : NoDup K) by (apply NoDup_filter, (i_tnd s I)). destruct (release_list L s NL) as (A1 & A2 & A3 & A4 & A5 & A6 & A7 & A8). set (s1 := fold_left release L s) in *.
  assert (IL : forall h, In h L <-> In h (table s i) /\ obj s h = None) by (intros h; unfold L; rewrite filter_In; destruct (obj s h); intuition discriminate).
  assert (IK : forall h, In h K <-> In h (table s i) /\ In h (handles s)). { intros h. unfold K. rewrite filter_In. split; intros [A B]; (split; [exact A|]); [destruct (i_tab s I i h A) as [_ [Q|Q]]; [exact Q|rewrite Q in B; discriminate]|destruct (i_live s I h B) as (o & ->); reflexivity]. }
  assert (J : Inv (set_cell s1 i K)). { apply drop_ok; auto. - intros h. rewrite IL, IK. split; [intros A; destruct (i_tab s I i h A) as [_ [Q|Q]]; auto|intros [[A _]|[A _]]; auto]. - intros h A B. apply IL in A as [_ A]. apply IK in B as [_ B]. destruct (i_live s I h B) as (o & Q). congruence. }
  assert (TB : forall j, table (set_cell s1 i K) j = if j =? i then K else table s j) by (intros j; cbn; unfold upd; rewrite A3; reflexivity).
  assert (LV : forall o h, live (set_cell s1 i K) o h <-> live s o h) by (intros o h; unfold live; cbn; rewrite A4; destruct (A6 h) as [-> _]; tauto).
  split; [exact J|]. split; [|split; [exact A4|split; [exact A5|split; [intros h; destruct (A6 h) as (B & C & _); auto|split]]]].
  - constructor; [exact A1|exact A2| |].
    + intros o. unfold memb. split; intros (h & Q); exists h; now apply LV.
    + intros o j. unfold cov. split; intros (h & Q & R); exists h; (split; [now apply LV|]); rewrite TB in *; destruct (Nat.eqb_spec j i) as [->|]; auto; [now apply IK in R|]. apply IK. split; [exact R|]. apply Q.
  - intros h. rewrite TB, Nat.eqb_refl. apply IK.
  - intros j h. rewrite TB. destruct (Nat.eqb_spec j i) as [->|]; auto. intros Q. now apply IK in Q.
Qed.
(** the objects reported so far are those of the handles with the stamp of the query *)
Definition reported (s : hash) (q : option nat) (out : list nat) : Prop := NoDup out /\ (forall o, In o out <-> exists h, live s o h /\ stp s h = hstamp s) /\ (forall o, In o out -> q <> Some o).
Lemma walk_ok : forall l (s : hash) q out, Inv s -> reported s q out -> (forall h, In h l -> In h (handles s) \/ obj s h = None) ->
  let '(s', out', again) := walk s l q out in same s s' /\ reported s' q out' /\ (forall h, stp s' h = stp s h \/ In h l /\ stp s' h = hstamp s) /\
  (forall h, stp s h = hstamp s -> stp s' h = hstamp s) /\
  (again = false -> forall h o, In h l -> live s o h -> q <> Some o -> stp s' h = hstamp s) /\ ((forall h, In h l -> In h (handles s)) -> again = false).
Proof.
  induction l as [|h l IH]; intros s q out I Rp Hl; cbn [walk]; [split; [apply same_refl|]; split; [exact Rp|]; split; [auto|]; split; [auto|]; split; [intros _ h o []|auto]|].
  destruct ((stp s h =? hstamp s) || match q, obj s h with Some a, Some b => a =? b | _, _ => false end) eqn:B.
  - specialize (IH s q out I Rp ltac:(intros; apply Hl; now right)). destruct (walk s l q out) as [[s' out'] again]. destruct IH as (A1 & A2 & A3 & A4 & A5 & A6). split; [exact A1|]. split; [exact A2|]. split; [intros x; destruct (A3 x) as [Q|[Q R]]; [auto|right; split; [now right|exact R]]|]. split; [exact A4|]. split; [|intros Q; apply A6; intros; apply Q; now right].
    intros Ag x o [<-|X] Lv Nq; [|eapply A5; eauto]. apply orb_true_iff in B as [B|B]; [apply Nat.eqb_eq in B; auto|]. destruct Lv as [_ Lo]. rewrite Lo in B. destruct q as [a|]; [|discriminate]. apply Nat.eqb_eq in B. congruence.
  - apply orb_false_iff in B as [B1 B2]. apply Nat.eqb_neq in B1. destruct (obj s h) as [o|] eqn:Eo.
    + assert (Hh : In h (handles s)) by (destruct (Hl h ltac:(now left)) as [Q|Q]; [exact Q|congruence]). set (s1 := set_stamp s h (hstamp s)). pose proof (same_stamp s h (hstamp s)) as S1. fold s1 in S1. pose proof (Inv_same s s1 S1 I) as I1.
      assert (ST : forall x, stp s1 x = if x =? h then hstamp s else stp s x) by (intros x; unfold s1; cbn; unfold upd; destruct (x =? h); reflexivity).
      assert (HS : hstamp s1 = hstamp s) by reflexivity. assert (OB : forall x, obj s1 x = obj s x) by apply S1. assert (HH : handles s1 = handles s) by reflexivity.
      assert (LV : forall o' x, live s1 o' x <-> live s o' x) by (intros o' x; unfold live; rewrite OB, HH; tauto).
      assert (R1 : reported s1 q (out ++ [o])).
      { destruct Rp as (N & M & Q). assert (No : ~ In o out). { intros J. apply M in J as (x & [L1 L2] & L3). assert (x = h) by (eapply (i_inj s I); eauto). subst x. contradiction. } split; [|split].
        - clear -N No. induction N as [|y l Ny _ IH]; cbn; [constructor; [intros []|constructor]|]. constructor; [rewrite in_app_iff; intros [A|[<-|[]]]; [contradiction|apply No; now left]|]. apply IH. intros A. apply No. now right.
        - intros o'. rewrite in_app_iff, M. cbn [In]. split.
          + intros [(x & L & E)|[<-|[]]]; [exists x; split; [now apply LV|]; rewrite ST, HS; destruct (x =? h); auto|]. exists h. split; [apply LV; split; auto|]. rewrite ST, Nat.eqb_refl. reflexivity.
          + intros (x & L & E). apply LV in L. rewrite ST, HS in E. destruct (Nat.eqb_spec x h) as [->|]; [right; left; destruct L; congruence|left; eauto].
        - intros o'. rewrite in_app_iff. intros [A|[<-|[]]]; [auto|]. intros ->. rewrite Nat.eqb_refl in B2. discriminate. }
      specialize (IH s1 q (out ++ [o]) I1 R1 ltac:(intros x X; rewrite OB, HH; apply Hl; now right)). destruct (walk s1 l q (out ++ [o])) as [[s' out'] again]. destruct IH as (A1 & A2 & A3 & A4 & A5 & A6). rewrite HS in *. split; [eapply same_trans; eauto|]. split; [exact A2|]. split; [|split; [|split]].
      * intros x. destruct (A3 x) as [Q|[Q R]]; [|right; split; [now right|exact R]]. rewrite Q, ST. destruct (Nat.eqb_spec x h) as [->|]; [right; split; [now left|reflexivity]|auto].
      * intros x X. apply A4. rewrite ST. destruct (x =? h); auto.
      * intros Ag x o' [<-|X] Lv Nq; [apply A4; rewrite ST, Nat.eqb_refl; reflexivity|]. apply (A5 Ag x o'); auto. now apply LV.
      * intros Q. apply A6. intros x X. rewrite HH. apply Q. now right.
    + split; [apply same_refl|]. split; [exact Rp|]. split; [auto|]. split; [auto|]. split; [discriminate|]. intros Q. destruct (i_live s I h (Q h ltac:(now left))) as (o & E). congruence.
Qed.
Lemma reported_keeps (s s' : hash) q out : reported s q out -> handles s' = handles s -> hstamp s' = hstamp s -> (forall h, obj s' h = obj s h /\ stp s' h = stp s h) -> reported s' q out.
Proof. intros (N & M & Q) E1 E2 E3. split; [exact N|]. split; [|exact Q]. intros o. rewrite M. unfold live. rewrite E1, E2. split; intros (h & A); exists h; destruct (E3 h) as [B C]; [rewrite B, C|rewrite <- B, <- C]; exact A. Qed.
(** the second pass never meets a handle without object *)
Lemma no_third_pass (s : hash) l q out : Inv s -> reported s q out -> (forall h, In h l -> In h (handles s)) -> snd (walk s l q out) = false.
Proof. intros I R H. pose proof (walk_ok l s q out I R ltac:(auto)) as W. destruct (walk s l q out) as [[s' out'] again]. apply W. exact H. Qed.
Lemma same_keeps (s s' : hash) : same s s' -> keeps s s'.
Proof. intros [n d t hh p st o r]. constructor; auto; unfold memb, cov, live; intros; rewrite hh, ?t; split; intros (h & A); exists h; [rewrite <- o|rewrite o|rewrite <- o|rewrite o]; exact A. Qed.
Definition fresh (s : hash) : Prop := forall h, in_use s h -> stp s h <= hstamp s.
(** the walk does not look at the table *)
Lemma walk_with_table : forall l' (x : hash) t q out, walk (with_table x t) l' q out = let '(y, a, b) := walk x l' q out in (with_table y t, a, b).
Proof. induction l' as [|h l' IH]; intros x t q out; cbn [walk]; [reflexivity|]. cbn [heap hstamp with_table]. destruct (_ || _); [apply IH|]. destruct (h_obj (heap x h)); [|reflexivity]. rewrite <- IH. reflexivity. Qed.
Lemma walk_table : forall l' (x : hash) q out, table (fst (fst (walk x l' q out))) = table x.
Proof. induction l' as [|h l' IH]; intros x q out; cbn [walk]; [reflexivity|]. destruct (_ || _); [apply IH|]. destruct (h_obj (heap x h)); [|reflexivity]. rewrite IH. reflexivity. Qed.
(** writing a chain back unchanged *)
Lemma set_back (s : hash) i l : table s i = l -> Inv s -> fresh s -> Inv (set_cell s i l) /\ fresh (set_cell s i l) /\ keeps s (set_cell s i l).
Proof.
  intros E I Fr. assert (SS : forall j, table (set_cell s i l) j = table s j) by (intros j; cbn; unfold upd; destruct (Nat.eqb_spec j i) as [->|]; congruence). set (s5 := set_cell s i l) in *.
  assert (UU : forall h, in_use s5 h <-> in_use s h) by (intros h; unfold in_use; change (handles s5) with (handles s); split; (intros [Q|(j & Q)]; [auto|right; exists j]); [rewrite <- SS|rewrite SS]; exact Q).
  split; [|split].
  - destruct I as [b1 b2 b3 b4 b5 b6 b7 b8 b9]. assert (RR : forall h, refs s5 h = refs s h) by (intros h; unfold refs; change (numcells s5) with (numcells s); f_equal; apply filter_ext; intros j; now rewrite SS). constructor; auto.
    + intros j h. rewrite SS. apply b4.
    + intros j. rewrite SS. apply b5.
    + intros h U. rewrite RR. apply b6. now apply UU.
    + intros h Q U. apply (b8 h Q). now apply UU.
  - intros h U. apply UU in U. exact (Fr h U).
  - constructor; try reflexivity. intros o j. unfold cov. rewrite SS. reflexivity.
Qed.
Lemma cell_ok (s : hash) i q out : Inv s -> fresh s -> i < numcells s -> reported s q out -> let '(s', out') := query_cell q (s, out) i in
  Inv s' /\ fresh s' /\ keeps s s' /\ hstamp s' = hstamp s /\ handles s' = handles s /\ (forall h, obj s' h = obj s h) /\ reported s' q out' /\
  (forall h, stp s' h = stp s h \/ In h (table s i) /\ stp s' h = hstamp s) /\ (forall h, stp s h = hstamp s -> stp s' h = hstamp s) /\ (forall h o, In h (table s i) -> live s o h -> q <> Some o -> stp s' h = hstamp s).
Proof.
  intros I Fr Li Rp. unfold query_cell, query_helper. pose proof (walk_ok (table s i) s q out I Rp (fun h A => proj2 (i_tab s I i h A))) as W. destruct (walk s (table s i) q out) as [[s1 o1] again]. destruct W as (A1 & A2 & A3 & A4 & A5 & _).
  pose proof (Inv_same s s1 A1 I) as I1. pose proof A1 as S1. destruct S1 as [n1 d1 t1 h1 p1 st1 ob1 r1]. assert (F1 : fresh s1). { intros h U. apply (same_use s s1 h A1) in U. rewrite st1. destruct (A3 h) as [->|[_ ->]]; auto. }
  destruct again.
  - pose proof (purge_ok s1 i I1 ltac:(now rewrite n1)) as P. cbv zeta in P. destruct P as (J & K & B1 & B2 & B3 & B4 & B5). unfold purge in *. rewrite <- t1. destruct (remove_orphaned s1 (table s1 i)) as [s2 l] eqn:E2.
    set (s3 := set_cell s2 i l) in *. assert (TL : table s3 i = l) by (unfold s3; cbn; unfold upd; now rewrite Nat.eqb_refl).
    assert (R3 : reported s3 q o1) by (eapply reported_keeps; eauto).
    assert (Hl : forall h, In h l -> In h (handles s3)) by (intros h; rewrite <- TL, B4, B1; tauto).
    (* the walk does not look at the table *)
    pose proof (walk_ok l s3 q o1 J R3 ltac:(auto)) as W. assert (Ew : walk s3 l q o1 = let '(y, a, b) := walk s2 l q o1 in (with_table y (upd (table s2) i l), a, b)) by apply walk_with_table. rewrite Ew in W. pose proof (walk_table l s2 q o1) as WT2. destruct (walk s2 l q o1) as [[s4 o4] ag]. cbn [fst] in WT2. 
    assert (E4 : set_cell s4 i l = with_table s4 (upd (table s2) i l)) by (unfold set_cell; now rewrite WT2). rewrite E4. set (s5 := with_table s4 (upd (table s2) i l)) in *. destruct W as (C1 & C2 & C3 & C4 & C5 & C6).
    assert (Ag : ag = false) by (apply C6; exact Hl). specialize (C5 Ag). pose proof C1 as S5. destruct S5 as [n5 d5 t5 h5 p5 st5 ob5 r5].
    assert (HS : hstamp s3 = hstamp s) by congruence. split; [eapply Inv_same; eauto|]. split; [|split; [|split; [congruence|split; [congruence|split; [|split; [exact C2|split; [|split]]]]]]].
    + intros h U. apply (same_use s3 s5 h C1) in U. rewrite st5, HS. destruct (C3 h) as [->|[_ ->]]; [|lia]. destruct (B3 h) as [_ ->]. rewrite <- st1. apply F1. destruct U as [U|(j & U)]; [left; congruence|right; exists j; now apply B5].
    + eapply keeps_trans; [apply same_keeps, A1|]. eapply keeps_trans; [exact K|]. now apply same_keeps.
    + intros h. rewrite ob5. destruct (B3 h) as [-> _]. apply ob1.
    + intros h. destruct (C3 h) as [Q|[Q R]]; [|right; split; [|congruence]; rewrite <- TL in Q; apply B4 in Q as [Q _]; first [exact Q|rewrite t1 in Q; exact Q]]. rewrite Q. destruct (B3 h) as [_ ->]. rewrite ?t1. apply A3.
    + intros h Q. rewrite <- HS. apply C4. destruct (B3 h) as [_ ->]. rewrite HS. auto.
    + intros h o Q Lv Nq. rewrite <- HS. apply (C5 h o); auto; [rewrite <- TL; apply B4; split; [first [exact Q|rewrite t1; exact Q]|rewrite h1; apply Lv]|]. unfold live. destruct (B3 h) as [-> _]. rewrite B1, h1, ob1. exact Lv.
  - destruct (set_back s1 i (table s i) ltac:(now rewrite t1) I1 F1) as (I5 & F5 & K5). split; [exact I5|]. split; [exact F5|]. split; [eapply keeps_trans; [apply same_keeps, A1|exact K5]|].
    split; [exact st1|split; [exact h1|split; [exact ob1|split; [exact A2|split; [exact A3|split; [exact A4|exact (A5 eq_refl)]]]]]].
Qed.
Lemma cells_fold : forall is (s : hash) q out, Inv s -> fresh s -> (forall i, In i is -> i < numcells s) -> reported s q out -> let '(s', out') := fold_left (query_cell q) is (s, out) in
  Inv s' /\ fresh s' /\ keeps s s' /\ hstamp s' = hstamp s /\ handles s' = handles s /\ (forall h, obj s' h = obj s h) /\ reported s' q out' /\ (forall h, stp s h = hstamp s -> stp s' h = hstamp s) /\
  (forall o h, live s o h -> stp s' h = hstamp s -> stp s h = hstamp s \/ q <> Some o /\ exists i, In i is /\ In h (table s i)) /\
  (forall o h i, In i is -> In h (table s i) -> live s o h -> q <> Some o -> stp s' h = hstamp s).
Proof.
  induction is as [|i is IH]; intros s q out I Fr Li Rp; cbn [fold_left].
  { split; [exact I|]. split; [exact Fr|]. split; [apply keeps_refl|]. repeat (split; [auto|]). intros o h i []. }
  pose proof (cell_ok s i q out I Fr ltac:(apply Li; now left) Rp) as C. destruct (query_cell q (s, out) i) as [s1 o1]. destruct C as (A1 & A2 & A3 & A4 & A5 & A6 & A7 & A8 & A9 & A10).
  pose proof A3 as K1. destruct K1 as [kn kd km kc]. specialize (IH s1 q o1 A1 A2 ltac:(intros j J; rewrite kn; apply Li; now right) A7). destruct (fold_left (query_cell q) is (s1, o1)) as [s2 o2]. destruct IH as (B1 & B2 & B3 & B4 & B5 & B6 & B7 & B8 & B9 & B10).
  assert (LV : forall o h, live s1 o h <-> live s o h) by (intros o h; unfold live; rewrite A5, A6; tauto).
  assert (TB : forall o h j, live s o h -> (In h (table s1 j) <-> In h (table s j))).
  { intros o h j L. destruct (kc o j) as [X Y]. split; intros Q.
    - destruct X as (h' & L' & Q'); [exists h; split; [now apply LV|exact Q]|]. assert (h' = h) as <-; [|exact Q']. destruct L, L'. eapply (i_inj s I); eauto.
    - destruct Y as (h' & L' & Q'); [exists h; split; [exact L|exact Q]|]. apply LV in L'. assert (h' = h) as <-; [|exact Q']. destruct L, L'. eapply (i_inj s I); eauto. }
  split; [exact B1|]. split; [exact B2|]. split; [eapply keeps_trans; eauto|]. split; [congruence|]. split; [congruence|]. split; [intros h; now rewrite B6|]. split; [exact B7|]. rewrite A4 in *. split; [auto|]. split.
  - intros o h L E. destruct (B9 o h (proj2 (LV o h) L) E) as [Q|(Q & j & J & K)].
    + destruct (A8 h) as [R|[R _]]; [left; congruence|]. destruct (Nat.eq_dec (stp s h) (hstamp s)) as [E0|E0]; [auto|right]. split; [|exists i; split; [now left|exact R]].
      intros ->. destruct A7 as (_ & M & N). apply (N o); [|reflexivity]. apply M. exists h. split; [now apply LV|]. congruence.
    + right. split; [exact Q|]. exists j. split; [now right|]. apply (TB o h j L). exact K.
  - intros o h j [<-|J] K L Nq; [apply B8; eapply A10; eauto|]. apply (B10 o h j J); [now apply (TB o h j L)|now apply LV|exact Nq].
Qed.
Lemma query_ok (s : hash) q x : Inv s -> Old s -> 0 < numcells s -> let '(s', out) := sh_query s q x in
  Inv s' /\ Old s' /\ keeps s s' /\ NoDup out /\ (forall o, In o out <-> memb s o /\ q <> Some o /\ exists i, In i (slots s x) /\ cov s o i).
Proof.
  intros I O P. unfold sh_query. assert (R0 : reported s q []). { split; [constructor|]. split; [|intros o []]. intros o. split; [intros []|]. intros (h & [L _] & E). exfalso. assert (stp s h < hstamp s) by (apply O; now left). lia. }
  assert (F0 : fresh s) by (intros h U; apply Nat.lt_le_incl; now apply O). pose proof (cells_fold (slots s x) s q [] I F0 (slots_lt s x P) R0) as C. destruct (fold_left (query_cell q) (slots s x) (s, [])) as [s1 out]. destruct C as (A1 & A2 & A3 & A4 & A5 & A6 & A7 & A8 & A9 & A10).
  assert (LV : forall o h, live s1 o h <-> live s o h) by (intros o h; unfold live; rewrite A5, A6; tauto).
  split; [destruct A1; constructor; auto; cbn; apply Nat.lt_0_succ|]. split; [intros h U; apply Nat.lt_succ_r; exact (A2 h U)|]. split; [destruct A3; constructor; auto|]. destruct A7 as (N & M & Q). split; [exact N|].
  intros o. rewrite M. split.
  - intros (h & L & E). apply LV in L. rewrite A4 in E. split; [exists h; exact L|]. destruct (A9 o h L E) as [Z|(Z & i & J & K)]; [exfalso; assert (stp s h < hstamp s) by (apply O; left; apply L); lia|]. split; [exact Z|]. exists i. split; [exact J|]. exists h. auto.
  - intros ((h & L) & Nq & i & J & h' & L' & K). exists h'. split; [now apply LV|]. rewrite A4. eapply A10; eauto.
Qed.
End P.
