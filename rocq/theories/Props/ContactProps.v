(** C17, C104, C105: contact memory. *)
From Coq Require Import ZArith Arith Bool List Lia Reals.
From Verif Require Import Num SpecContacts.
From Verif.Model Require Import Vector Solver Contacts.
From Verif.Proofs Require Import ContactsPf ContactsPf2 ContactsPf3 ContactsRing.
Import ListNotations.
Local Open Scope nat_scope.

Section Props.
Context {T : Type} `{Num T}.

Lemma ringed_new : ringed (@cs_new T _) [].
Proof.
  constructor.
  - exact Logic.I.
  - constructor.
  - intros b. cbn. lia.
  - discriminate.
  - reflexivity.
  - constructor.
  - intros b [].
Qed.
Lemma at_any_moment (pre post : list (event T)) : step_history (pre ++ post) -> holds_along sane blank (pre ++ post) ->
  holds_along stored_when_idle blank (pre ++ post) ->
  exists s, cs_run pre cs_new = Some s /\ inv s /\ refines s (tell pre blank).
Proof.
  intros S Sa Si. destruct (steps_timely _ S Si) as (_ & Ti). apply along_app in Sa. apply along_app in Ti.
  destruct inv_new as (J & R). now apply (run_ok pre cs_new blank J R).
Qed.

(** C17. At every moment of every history of steps, the code has not panicked, the space
    remembers exactly the pairs it should, and what it reads as a pair's contacts are that
    pair's own contacts: those of its last touching as since rewritten by the solver. *)
Theorem C17_own_contacts (pre post : list (event T)) :
  step_history (pre ++ post) -> holds_along sane blank (pre ++ post) -> holds_along stored_when_idle blank (pre ++ post) ->
  exists s, cs_run pre cs_new = Some s /\
    forall a, (k_arbs s a = None <-> bk_note (tell pre blank) a = None) /\
              Forall2 same_contact (recall s a) (contacts_of (tell pre blank) a).
Proof.
  intros S Sa Si. destruct (at_any_moment pre post S Sa Si) as (s & E & _ & _ & Ag). exists s. split; [exact E|]. intros a. specialize (Ag a).
  unfold recall, contacts_of, agrees in *. destruct (k_arbs s a), (bk_note (tell pre blank) a); try contradiction.
  - split; [split; discriminate|apply Ag].
  - split; [split; reflexivity|constructor].
Qed.

(** C17. The slots of two remembered pairs never overlap, and the array handed out next
    belongs to none of them. *)
Theorem C17_not_handed_out_again (pre post : list (event T)) :
  step_history (pre ++ post) -> holds_along sane blank (pre ++ post) -> holds_along stored_when_idle blank (pre ++ post) ->
  exists s, cs_run pre cs_new = Some s /\
    (forall a x b off a' x' off', a <> a' -> k_arbs s a = Some x -> k_arbs s a' = Some x' ->
       x_mem x = MRing b off -> x_mem x' = MRing b off' -> 0 < x_count x -> 0 < x_count x' ->
       forall i j, i < x_count x -> j < x_count x' -> off + i <> off' + j) /\
    (0 < bk_now (tell pre blank) -> exists s' h n, get_array s = Some (s', h, n) /\
       forall a x off i j, k_arbs s a = Some x -> x_mem x = MRing h off -> i < x_count x -> j < 2 -> off + i <> n + j).
Proof.
  intros S Sa Si. destruct (at_any_moment pre post S Sa Si) as (s & E & J & R). exists s. split; [exact E|]. split.
  - intros a x b off a' x' off' N X X' M M' P P' i j Hi Hj.
    destruct (i_dis s (proj1 J) a b off (x_count x) x a' off' (x_count x') x') as [D|D]; try (now repeat split); lia.
  - intros P. rewrite <- (proj1 R) in P. destruct (get_array_ok s J P) as (s' & h & n & G & Hd). exists s', h, n. split; [exact G|].
    intros a x off i j X M Hi Hj. pose proof (handed_free s s' h n Hd a off (x_count x) x) as F.
    destruct Hd as (_ & _ & _ & _ & _ & _ & _ & Ka & _). specialize (F ltac:(repeat split; [now rewrite Ka|exact M|lia])). lia.
Qed.

(** C105. Contact memory does not leak: if no step keeps more than [m] contacts there are
    never more than 4 * (m / 1023 + 1) buffers, linked from oldest to newest into one ring. *)
Theorem C105_bounded (pre post : list (event T)) (m : nat) :
  step_history (pre ++ post) -> holds_along sane blank (pre ++ post) -> holds_along stored_when_idle blank (pre ++ post) ->
  light m 0 blank pre ->
  exists s, cs_run pre cs_new = Some s /\ k_nbufs s <= 4 * (m / 1023 + 1).
Proof.
  intros S Sa Si Li. destruct (steps_timely _ S Si) as (_ & Ti). apply along_app in Sa. apply along_app in Ti.
  destruct inv_new as (J & R).
  destruct (run_few pre m 0 cs_new blank [] J R (proj1 Sa) (proj1 Ti) Li (Nat.le_0_l m)) as (s & E & N & _).
  - constructor.
    + exact ringed_new.
    + intros j. apply Nat.le_0_l.
    + apply Nat.le_0_l.
    + reflexivity.
    + intros b h _ [].
  - now exists s.
Qed.
Theorem C105_ring (pre post : list (event T)) :
  step_history (pre ++ post) -> holds_along sane blank (pre ++ post) -> holds_along stored_when_idle blank (pre ++ post) ->
  exists s l, cs_run pre cs_new = Some s /\
    NoDup l /\ (forall b, In b l <-> b < k_nbufs s) /\
    (forall i, i < length l -> u_next (k_bufs s (nth i l 0)) = nth (S i mod length l) l 0) /\
    (forall i j, i <= j -> j < length l -> u_stamp (k_bufs s (nth i l 0)) <= u_stamp (k_bufs s (nth j l 0))) /\
    (forall h, k_head s = Some h -> nth (length l - 1) l 0 = h).
Proof.
  intros St Sa Si. destruct (steps_timely _ St Si) as (_ & Ti). apply along_app in Sa. apply along_app in Ti.
  destruct inv_new as (J & R).
  assert (Li : exists m, light m 0 (@blank T) pre).
  { clear. generalize (@blank T) as k. generalize 0 as load. induction pre as [|e es IH]; intros load k; [now exists 0|].
    cbn [light]. set (ld := match e with Begin => 0 | _ => _ end). destruct (IH ld (happen k e)) as (m & L).
    exists (Nat.max m ld). split; [lia|]. revert L. generalize (happen k e) as k'. generalize ld at 1 3 as l0. generalize ld. clear.
    induction es as [|e es IH]; intros n l0 k'; [auto|]. cbn [light]. intros (A & B). split; [lia|now apply IH]. }
  destruct Li as (m & Li).
  destruct (run_few pre m 0 cs_new blank [] J R (proj1 Sa) (proj1 Ti) Li (Nat.le_0_l m)) as (s & E & _ & l & Rg).
  - constructor.
    + exact ringed_new.
    + intros j. apply Nat.le_0_l.
    + apply Nat.le_0_l.
    + reflexivity.
    + intros b h _ [].
  - exists s, l. split; [exact E|]. destruct Rg as [Lk Nd Al So No Sr Nw]. split; [exact Nd|]. split; [exact Al|]. split; [|split].
    + assert (G : forall l' y, linked (nxt s) l' y -> forall i, i < length l' -> u_next (k_bufs s (nth i l' 0)) = nth (S i) (l' ++ [y]) 0).
      { clear. intros l'. induction l' as [|b r IH]; intros y L i Hi; [cbn in Hi; lia|]. destruct L as (A & B). destruct i as [|i].
        - cbn [nth app]. unfold nxt in A. rewrite A. destruct r; reflexivity.
        - cbn [length] in Hi. cbn [nth app]. rewrite (IH y B i) by lia. reflexivity. }
      intros i Hi. rewrite (G l _ Lk i Hi). destruct (Nat.eq_dec (S i) (length l)) as [Q|Q].
      * rewrite Q, Nat.mod_same by lia. rewrite app_nth2 by lia. rewrite Nat.sub_diag. destruct l; reflexivity.
      * rewrite Nat.mod_small by lia. now rewrite app_nth1 by lia.
    + clear - Sr. intros i j Hij Hj. revert i j Hij Hj. induction Sr as [|b r S IH F]; intros i j Hij Hj; [cbn in Hj; lia|].
      destruct j as [|j]; [replace i with 0 by lia; apply le_n|]. cbn [length] in Hj. destruct i as [|i].
      * cbn [nth]. rewrite Forall_forall in F. apply F. apply nth_In. lia.
      * cbn [nth]. apply IH; lia.
    + intros h Hh. destruct (So h Hh) as (l' & ->). rewrite app_length. cbn [length]. rewrite app_nth2 by lia.
      replace (length l' + 1 - 1 - length l') with 0 by lia. reflexivity.
Qed.
End Props.

(** ** Examples *)
Local Notation V0 := (mkV 0%R 0%R).
Definition seen (a : nat) : event R := Touch a V0 V0 [(V0, V0, 0%Z)] true.
Definition impulse (x : R) : Contact R := mkCon V0 V0 0%R 0%R 0%R x 0%R 0%R 0%R 0%Z.
Definition awake : event R := Sweep (fun _ => false).
Definition asleep (a : nat) : event R := Sweep (fun b => b =? a).

Definition saneb (k : book R) (e : event R) : bool :=
  match e with Touch _ _ _ found _ => (length found <=? 2) && (0 <? bk_now k) | Wake a => 0 <? bk_now k | _ => true end.
Fixpoint alongb (k : book R) (es : list (event R)) : bool :=
  match es with [] => true | e :: es => saneb k e && alongb (happen k e) es end.
Lemma sane_by es : forall k, alongb k es = true -> holds_along sane k es.
Proof.
  induction es as [|e es IH]; intros k; [reflexivity|]. cbn [alongb holds_along]. intros E. apply andb_true_iff in E. destruct E as (A & B).
  split; [|now apply IH]. destruct e; cbn [sane saneb] in *; auto.
  - apply andb_true_iff in A. destruct A as (A1 & A2). split; [now apply Nat.leb_le|now apply Nat.ltb_lt].
  - now apply Nat.ltb_lt.
Qed.
Fixpoint lightb (m load : nat) (k : book R) (es : list (event R)) : bool :=
  match es with
  | [] => true
  | e :: es => let load := match e with Begin => 0 | _ => load + kept k e end in (load <=? m) && lightb m load (happen k e) es
  end.
Lemma light_by m es : forall load k, lightb m load k es = true -> light m load k es.
Proof.
  induction es as [|e es IH]; intros load k; [reflexivity|]. cbn [lightb light]. intros E. apply andb_true_iff in E. destruct E as (A & B).
  split; [now apply Nat.leb_le|now apply IH].
Qed.

(** Pair 0 touches in the first step, is stored with its sleeping bodies in the third and
    woken in the seventh; pair 1 touches in every step. *)
Definition life : list (event R) :=
  [Begin; seen 0; seen 1; awake; Write 0 [impulse 2%R];
   Begin; seen 0; seen 1; awake; Write 1 [impulse 3%R];
   Begin; seen 0; seen 1; Rest 0; asleep 0;
   Begin; seen 1; asleep 0; Begin; seen 1; asleep 0; Begin; seen 1; asleep 0;
   Wake 0; Begin; seen 1; awake].
Lemma life_steps : step_history life.
Proof.
  assert (Q : forall es ts ws idle rest, step_history es -> Forall touching ts -> Forall stirring ws -> Forall stirring rest ->
    step_history (es ++ (Begin : event R) :: ts ++ ws ++ Sweep idle :: rest)) by (intros; now constructor).
  pose proof (Q [] [seen 0; seen 1] [] (fun _ => false) [Write 0 [impulse 2%R]] (sh_nil) ltac:(repeat constructor) ltac:(repeat constructor) ltac:(repeat constructor)) as A.
  pose proof (Q _ [seen 0; seen 1] [] (fun _ => false) [Write 1 [impulse 3%R]] A ltac:(repeat constructor) ltac:(repeat constructor) ltac:(repeat constructor)) as A2.
  pose proof (Q _ [seen 0; seen 1] [Rest 0] (fun b => b =? 0) [] A2 ltac:(repeat constructor) ltac:(repeat constructor) ltac:(repeat constructor)) as A3.
  pose proof (Q _ [seen 1] [] (fun b => b =? 0) [] A3 ltac:(repeat constructor) ltac:(repeat constructor) ltac:(repeat constructor)) as A4.
  pose proof (Q _ [seen 1] [] (fun b => b =? 0) [] A4 ltac:(repeat constructor) ltac:(repeat constructor) ltac:(repeat constructor)) as A5.
  pose proof (Q _ [seen 1] [] (fun b => b =? 0) [Wake 0] A5 ltac:(repeat constructor) ltac:(repeat constructor) ltac:(repeat constructor)) as A6.
  exact (Q _ [seen 1] [] (fun _ => false) [] A6 ltac:(repeat constructor) ltac:(repeat constructor) ltac:(repeat constructor)).
Qed.
Example C17_nonvacuous :
  step_history life /\ holds_along sane blank life /\ holds_along stored_when_idle blank life /\ light 3 0 blank life /\
  (exists s, cs_run life cs_new = Some s /\ length (recall s 0) = 1 /\ c_jnAcc (nth 0 (recall s 0) (impulse 7%R)) = 2%R /\
             c_jnAcc (nth 0 (recall s 1) (impulse 7%R)) = 3%R /\ k_nbufs s = 4).
Proof.
  split; [exact life_steps|]. split; [apply sane_by; vm_compute; reflexivity|]. split.
  - cbn [holds_along life seen awake asleep]. repeat (split; [try exact Logic.I|]); try exact Logic.I;
      intros a n E I; try discriminate; apply Nat.eqb_eq in I; subst a; left; injection E as <-; reflexivity.
  - split; [apply light_by; vm_compute; reflexivity|].
    pose (look := fun s : CSpace R => (length (recall s 0), c_jnAcc (nth 0 (recall s 0) (impulse 7%R)), c_jnAcc (nth 0 (recall s 1) (impulse 7%R)), k_nbufs s)).
    assert (E : option_map look (cs_run life cs_new) = Some (1, 2%R, 3%R, 4)) by (vm_compute; reflexivity).
    destruct (cs_run life cs_new) as [s|]; [|discriminate]. exists s. split; [reflexivity|]. cbn [option_map] in E. unfold look in E.
    injection E as E1 E2 E3 E4. now repeat split.
Qed.

(** C104, the corner the condition [stored_when_idle] excludes. Pair 0 touches in the first
    step only; in the second its bodies, no longer in contact, fall asleep, so that their
    arbiter is neither stored away nor swept. In the fifth step its memory goes to pair 1.
    When the bodies of pair 0 are woken and touch again in the sixth, the new contact starts
    with the impulse of pair 1. *)
Definition drift : list (event R) :=
  [Begin; seen 0; awake; Begin; asleep 0; Begin; asleep 0; Begin; asleep 0;
   Begin; seen 1; asleep 0; Write 1 [impulse 1%R]; Begin; seen 0; awake].
Lemma drift_steps : step_history drift.
Proof.
  assert (Q : forall es ts ws idle rest, step_history es -> Forall touching ts -> Forall stirring ws -> Forall stirring rest ->
    step_history (es ++ (Begin : event R) :: ts ++ ws ++ Sweep idle :: rest)) by (intros; now constructor).
  pose proof (Q [] [seen 0] [] (fun _ => false) [] (sh_nil) ltac:(repeat constructor) ltac:(repeat constructor) ltac:(repeat constructor)) as A.
  pose proof (Q _ [] [] (fun b => b =? 0) [] A ltac:(repeat constructor) ltac:(repeat constructor) ltac:(repeat constructor)) as A2.
  pose proof (Q _ [] [] (fun b => b =? 0) [] A2 ltac:(repeat constructor) ltac:(repeat constructor) ltac:(repeat constructor)) as A3.
  pose proof (Q _ [] [] (fun b => b =? 0) [] A3 ltac:(repeat constructor) ltac:(repeat constructor) ltac:(repeat constructor)) as A4.
  pose proof (Q _ [seen 1] [] (fun b => b =? 0) [Write 1 [impulse 1%R]] A4 ltac:(repeat constructor) ltac:(repeat constructor) ltac:(repeat constructor)) as A5.
  exact (Q _ [seen 0] [] (fun _ => false) [] A5 ltac:(repeat constructor) ltac:(repeat constructor) ltac:(repeat constructor)).
Qed.
Theorem C104_idle_pair_refuted : exists es : list (event R), step_history es /\ holds_along sane blank es /\
  exists s, cs_run es cs_new = Some s /\
    length (recall s 0) = 1 /\ c_jnAcc (nth 0 (recall s 0) zero_con) = 1%R /\
    length (contacts_of (tell es blank) 0) = 1 /\ c_jnAcc (nth 0 (contacts_of (tell es blank) 0) zero_con) = 0%R.
Proof.
  exists drift. split; [exact drift_steps|]. split; [apply sane_by; vm_compute; reflexivity|].
    pose (look := fun s : CSpace R => (length (recall s 0), c_jnAcc (nth 0 (recall s 0) zero_con))).
    assert (E : option_map look (cs_run drift cs_new) = Some (1, 1%R)) by (vm_compute; reflexivity).
    destruct (cs_run drift cs_new) as [s|]; [|discriminate]. exists s. split; [reflexivity|]. cbn [option_map] in E. unfold look in E.
    injection E as E1 E2. split; [exact E1|]. split; [exact E2|]. split; vm_compute; reflexivity.
Qed.

Print Assumptions C17_own_contacts.
Print Assumptions C17_not_handed_out_again.
Print Assumptions C105_bounded.
Print Assumptions C105_ring.
Print Assumptions C104_idle_pair_refuted.
