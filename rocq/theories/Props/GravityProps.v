(** C24, exactly: which sleeping components SetGravity wakes. *)
From Coq Require Import List Arith NArith Bool Lia.
From Verif Require Import SpecSpace.
From Verif.Model Require Import HashSet Space.
From Verif.Proofs Require Import Util SpaceLib SpaceInv SpaceAct SpaceReach SpaceTop SpaceComp2.
From Verif.Props Require Import SpaceProps.
Import ListNotations.

(** the second, fourth, ... element *)
Fixpoint every_second {A} (l : list A) : list A := match l with _ :: y :: l => y :: every_second l | _ => [] end.

Lemma snoc_case {A} (l : list A) : l = [] \/ exists m x, l = m ++ [x].
Proof. destruct l using rev_ind; [auto|right; eauto]. Qed.
Lemma last_right {A} (l m : list A) x d : last (l ++ x :: m) d = last (x :: m) d.
Proof. destruct (snoc_case (x :: m)) as [D|(r & y & D)]; [discriminate|]. rewrite D, app_assoc, !last_last. reflexivity. Qed.
Section Props.
Context {T : Type} `{Time T}.
Implicit Types (s : Space T) (b c x : nat).
Lemma touch_sleep b l : forall s s', each (touch_idle b) s l = Some s' -> sp_sleep s' = sp_sleep s.
Proof.
  induction l as [|x l IH]; intros s s'; cbn [each]; [now intros [= <-]|]. unfold touch_idle at 1. intros E. rewrite (IH _ _ E). destruct (is_stat s _); reflexivity.
Qed.
(** Activate takes the component out of the list and keeps the order of the others *)
Lemma activate_sleep s b s' : Core s [] -> activate s b = Some s' -> sp_sleep s' = match root s b with Some r => del r (sp_sleep s) | None => sp_sleep s end.
Proof.
  intros I E. unfold activate in E. destruct (is_dyn s b) eqn:Kb; cbn [negb] in E.
  2:{ injection E as <-. destruct (root s b) as [r|] eqn:Er; [|reflexivity]. destruct (i_root _ _ I _ _ Er) as (_ & X & _). unfold is_dyn in Kb. apply kind_eqb_neq in Kb. tauto. }
  set (s1 := upd_b s b _) in *. assert (I1 : Core s1 []) by now apply idle_core.
  assert (R1 : forall y, root s1 y = root s y). { intros y. unfold root, s1. cbn. unfold upd. destruct (Nat.eqb_spec y b) as [->|]; auto. }
  change (sb_root (bod s1 b)) with (root s1 b) in E. rewrite <- R1. change (sp_sleep s) with (sp_sleep s1).
  destruct (root s1 b) as [r|] eqn:Er.
  - destruct (i_root _ _ I1 _ _ Er) as (Q1 & Q2 & Q3 & _). destruct (comp_of s1 [] r I1 Q3) as (l & KM & LEN & RIN).
    apply (k_in _ _ _ KM) in RIN. unfold sleeping in E. change (sb_root (bod s1 r)) with (root s1 r) in E. rewrite RIN in E.
    rewrite (members_chain s1 l) in E; auto; [|apply KM]. destruct (awoken s1 [] r l I1 KM) as (s2 & E2 & W2 & _). rewrite E2 in E.
    apply touch_sleep in E. rewrite E. cbn [sp_sleep set_sleep]. now rewrite (w_sleep _ _ _ W2).
  - now apply touch_sleep in E.
Qed.
Lemma sleeping_root s : Core s [] -> forall r, In r (sp_sleep s) <-> root s r = Some r.
Proof. intros It q. split; [intros D; destruct (i_comp _ _ It q D) as (l & _ & _ & Q); apply Q; cbn; auto|]. intros D. now apply (i_root _ _ It) in D. Qed.
Lemma del_mid x l m : NoDup (l ++ x :: m) -> del x (l ++ x :: m) = l ++ m.
Proof. intros N. apply NoDup_remove_2 in N. rewrite del_app_r by (intros D; apply N, in_app_iff; auto). cbn [del]. now rewrite Nat.eqb_refl. Qed.
(** the array is the present list and something left over; from here on it shows one body that is awake *)
Lemma stale n : forall k arr tl s s' z, Core s [] -> arr = sp_sleep s ++ tl -> root s z = None -> (forall j, k <= j < k + n -> nth j arr 0 = z) -> gravity_loop n k arr s = Some s' -> sp_sleep s' = sp_sleep s.
Proof.
  induction n as [|n IH]; intros k arr tl s s' z I A Rz Z E; cbn [gravity_loop] in E; [now injection E as <-|].
  rewrite (Z k) in E by lia. destruct (activate_ok s [] z I) as (s1 & E1 & I1 & W1 & R1 & _). rewrite E1 in E. pose proof (activate_sleep s z s1 I E1) as S1. rewrite Rz in S1.
  rewrite <- S1. apply (IH (S k) (backing arr (sp_sleep s1)) tl s1 s' z I1); auto.
  - unfold backing. rewrite S1, A. f_equal. now rewrite skipn_app, skipn_all, Nat.sub_diag.
  - rewrite R1, Rz. reflexivity.
  - intros j J. replace (backing arr (sp_sleep s1)) with arr; [apply Z; lia|]. unfold backing. rewrite S1, A. f_equal. now rewrite skipn_app, skipn_all, Nat.sub_diag.
Qed.
Lemma nth_tail (l : list nat) z n j : length l <= j -> j < length l + n -> nth j (l ++ repeat z n) 0 = z.
Proof. intros A B. rewrite app_nth2 by lia. rewrite (nth_indep _ 0 z) by (rewrite repeat_length; lia). apply nth_repeat. Qed.
Lemma loop_exact m : forall rest pre s s' z, length rest <= m -> Core s [] -> sp_sleep s = pre ++ rest -> (pre ++ rest <> [] -> last (pre ++ rest) 0 = z) ->
  gravity_loop (length pre + length rest) (length pre) (pre ++ rest ++ repeat z (length pre)) s = Some s' ->
  sp_sleep s' = match rest with [] => removelast pre | _ => pre ++ every_second (removelast rest) end.
Proof.
  induction m as [m IH] using lt_wf_ind. intros rest pre s s' z Lm I SL LZ E. pose proof (i_sleep_nd _ _ I) as ND. rewrite SL in ND. destruct rest as [|x rest].
  - rewrite app_nil_r in SL, LZ, ND. cbn [length app] in E. rewrite Nat.add_0_r in E. destruct (snoc_case pre) as [->|(pre0 & y & ->)]; [cbn in E; injection E as <-; exact SL|].
    rewrite last_last in LZ. specialize (LZ ltac:(intros D; now apply app_eq_nil in D as [_ D])). subst y. rewrite removelast_last. rewrite app_length in E. cbn [length] in E. rewrite Nat.add_1_r in E.
    assert (Rz : root s z = Some z) by (apply (sleeping_root s I); rewrite SL; apply in_app_iff; cbn; auto).
    cbn [gravity_loop] in E. rewrite nth_tail in E by (rewrite app_length; cbn; lia). destruct (activate_ok s [] z I) as (s1 & E1 & I1 & W1 & R1 & _). rewrite E1 in E. pose proof (activate_sleep s z s1 I E1) as S1.
    rewrite Rz, SL, del_mid, app_nil_r in S1 by exact ND. rewrite <- S1.
    assert (B : backing ((pre0 ++ [z]) ++ repeat z (S (length pre0))) (sp_sleep s1) = pre0 ++ repeat z (S (S (length pre0)))).
    { unfold backing. rewrite S1. f_equal. rewrite <- app_assoc. rewrite skipn_app, skipn_all, Nat.sub_diag. reflexivity. }
    rewrite B in E. refine (stale _ _ _ (repeat z (S (S (length pre0)))) s1 s' z I1 _ _ _ E); [now rewrite S1|exact (activate_root s [] z s1 I E1)|]. intros j J. apply nth_tail; lia.
  - rewrite Nat.add_comm in E. cbn [length Nat.add gravity_loop] in E.
    replace (nth (length pre) (pre ++ (x :: rest) ++ repeat z (length pre)) 0) with x in E by (rewrite app_nth2, Nat.sub_diag by lia; reflexivity).
    assert (Rx : root s x = Some x) by (apply (sleeping_root s I); rewrite SL; apply in_app_iff; cbn; auto).
    destruct (activate_ok s [] x I) as (s1 & E1 & I1 & W1 & R1 & _). rewrite E1 in E. pose proof (activate_sleep s x s1 I E1) as S1. rewrite Rx, SL, del_mid in S1 by exact ND.
    assert (LZ' : last (x :: rest) 0 = z) by (rewrite <- LZ by (destruct pre; discriminate); symmetry; apply last_right).
    destruct (snoc_case (x :: rest)) as [D|(r0 & y & D)]; [discriminate|]. rewrite D, last_last in LZ'. subst y.
    assert (L0 : length r0 = length rest) by (apply (f_equal (@length _)) in D; rewrite app_length in D; cbn in D; lia).
    assert (B : backing (pre ++ (x :: rest) ++ repeat z (length pre)) (sp_sleep s1) = (pre ++ rest) ++ repeat z (S (length pre))).
    { unfold backing. rewrite S1. f_equal. rewrite D, <- !app_assoc. rewrite !app_assoc. rewrite <- (app_assoc (pre ++ r0)). rewrite skipn_app. rewrite skipn_all2 by (rewrite !app_length; lia). rewrite !app_length, L0, Nat.sub_diag. reflexivity. }
    rewrite B in E. destruct rest as [|y rest].
    + cbn [removelast every_second]. rewrite app_nil_r in *. rewrite <- S1. assert (x = z) as -> by (destruct r0 as [|? [|]]; cbn in D; congruence).
      refine (stale _ _ _ (repeat z (S (length pre))) s1 s' z I1 _ _ _ E); [now rewrite S1|exact (activate_root s [] z s1 I E1)|]. intros j J. cbn [length] in J. apply nth_tail; lia.
    + cbn [length] in Lm, E.
      assert (E' : gravity_loop (length (pre ++ [y]) + length rest) (length (pre ++ [y])) ((pre ++ [y]) ++ rest ++ repeat z (length (pre ++ [y]))) s1 = Some s').
      { rewrite app_length. cbn [length]. rewrite Nat.add_1_r. rewrite <- !app_assoc in *. cbn [app] in *. rewrite <- E. f_equal. lia. }
      specialize (IH (length rest) ltac:(lia) rest (pre ++ [y]) s1 s' z (le_n _) I1). rewrite <- app_assoc in IH. cbn [app] in IH. specialize (IH S1).
      rewrite IH; auto.
      * destruct rest as [|w rest]; [rewrite removelast_last; cbn; now rewrite app_nil_r|]. rewrite <- app_assoc. reflexivity.
      * intros _. assert (LZ' : last (x :: y :: rest) 0 = z) by now rewrite D, last_last. rewrite last_right. rewrite <- LZ'. reflexivity.
Qed.
Lemma loop_same n : forall k arr s s', Core s [] -> gravity_loop n k arr s = Some s' -> forall b c, root s b = root s c -> root s' b = root s' c.
Proof.
  induction n as [|n IH]; intros k arr s s' I E b c Q; cbn [gravity_loop] in E; [now injection E as <-|].
  destruct (activate_ok s [] (nth k arr 0) I) as (s1 & E1 & I1 & W1 & R1 & _). rewrite E1 in E. apply (IH _ _ _ _ I1 E). now rewrite !R1, Q.
Qed.
(** [sp_sleep]: one body of every sleeping component, in the order in which they fell asleep.  Whatever the number of components: those at the second, fourth, ... place stay asleep, except the last one; all others wake *)
Theorem C24_which_stay_asleep : forall s s', reachable s -> set_gravity s = Some s' ->
  sp_sleep s' = every_second (removelast (sp_sleep s)) /\
  forall b, asleep s' b <-> exists r, In r (every_second (removelast (sp_sleep s))) /\ sb_root (sp_b s b) = Some r.
Proof.
  intros s s' R E. destruct (reach_ok s R) as [I _]. unfold set_gravity in E.
  assert (S : sp_sleep s' = every_second (removelast (sp_sleep s))).
  { destruct (sp_sleep s) as [|x l] eqn:Q; [cbn in E; injection E as <-; now rewrite Q|].
    pose proof (loop_exact (length (x :: l)) (x :: l) [] s s' (last (x :: l) 0) (le_n _) I Q (fun _ => eq_refl)) as L. cbn [app length repeat Nat.add] in L. rewrite app_nil_r in L. exact (L E). }
  split; [exact S|]. intros b. rewrite <- S. destruct (gravity_run (length (sp_sleep s)) 0 (sp_sleep s) s I) as (s2 & E2 & I2 & W). rewrite E in E2. injection E2 as <-.
  unfold asleep. change (sb_root (sp_b s' b)) with (root s' b). change (sb_root (sp_b s b)) with (root s b). split.
  - intros A. destruct (root s' b) as [r|] eqn:Rb; [|congruence]. exists r. split; [now apply (i_root _ _ I2) in Rb|]. destruct (y_root _ _ W b); congruence.
  - intros (r & Ir & Rb). assert (Rr : root s r = Some r) by (apply (sleeping_root s I); now apply (y_sleep _ _ W)).
    rewrite (loop_same _ _ _ _ _ I E b r) by congruence. apply (sleeping_root s' I2) in Ir. rewrite Ir. discriminate.
Qed.
(** in particular two components are no problem, and any more are *)
Theorem C24_at_most_two : forall s s', reachable s -> set_gravity s = Some s' -> ((forall b, ~ asleep s' b) <-> length (sp_sleep s) <= 2).
Proof.
  intros s s' R E. destruct (C24_which_stay_asleep s s' R E) as [S A]. destruct (reach_ok s R) as [I _]. split.
  - intros N. destruct (sp_sleep s) as [|x [|y [|z l]]] eqn:Q; cbn [length]; try lia. exfalso. apply (N y). apply A. exists y. split; [left; reflexivity|]. change (root s y = Some y). apply (sleeping_root s I). rewrite Q. cbn. auto.
  - intros L b D. apply A in D as (r & Ir & _). destruct (sp_sleep s) as [|x [|y [|z l]]]; cbn in L, Ir; try tauto. lia.
Qed.
End Props.
Local Existing Instance time_nat.
Example C24_nonvacuous : reachable three /\ sp_sleep three = [1; 2; 3] /\ match set_gravity three with Some s' => sp_sleep s' = [2] | None => False end.
Proof. split; [unfold three, exs; cbn [fold_left]; run|]. split; vm_compute; reflexivity. Qed.
Print Assumptions C24_which_stay_asleep. Print Assumptions C24_at_most_two.
